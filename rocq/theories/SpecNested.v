(** Vocabulary for uses inside the block of another use. *)
From Coq Require Import String.
From Verif Require Import Base Token Types Values Ast Env Item Deprecation Interpreter Parse Macro SpecPrograms SpecParse SpecElab SpecFormat SpecSubst SpecItem SpecDeprecation SpecMacro SpecRepro.
Open Scope list_scope.

(** [compose! { .. }]. *)
Definition inner_use (joint : bool) (ts : list tt) : list tt := [TIdent (txt "compose"); TPunct 33%N joint; TGroup Brace ts].

(** The tokens of the block (see [round_code], SpecMacro). *)
Definition code (ast : raw_ast (list stmt)) : list tt := block_tokens (map drop_where_stmt (ast_block ast)).

(** The loops of the outer use in front of those of the inner one, and so the definitions. *)
Definition loops_of {B} (ast : raw_ast B) : list loop_item := match ast_loops ast with Some ls => ls | None => [] end.
Definition joined_loops (l l' : option (list loop_item)) : option (list loop_item) :=
  match l, l' with
  | None, _ => l'
  | _, None => l
  | Some a, Some b => Some (a ++ b)
  end.
Definition flattened {B} (outer inner ast : raw_ast B) : Prop :=
  ast_loops ast = joined_loops (ast_loops outer) (ast_loops inner) /\ own_items ast = own_items outer ++ own_items inner.

(** The inner use mentions no alias of the outer one, whose definitions mention no loop
    variable of the inner one. *)
Definition staged {B} (outer inner : raw_ast B) : Prop :=
  (forall x e, In x (ast_aliases outer) -> In e (ast_exprs inner) -> ~ In x (mentions e)) /\
  (forall l x it, In l (loops_of inner) -> In x (pattern_aliases (loop_pattern l)) -> In it (own_items outer) -> ~ In x (mentions (snd it))).

(** Strings without runs of percent signs. *)
Definition once_only (p : piece) : Prop := match p with PText _ => True | PHole _ k => k = 0 | PPercents _ => False end.
Definition plain_string (v : str) : Prop := exists ps tail, v = render 37%N ps tail /\ wf 37%N ps tail /\ Forall once_only ps.
Definition plain_strings (O : oracles) (ts : list tt) : Prop :=
  forall l v p, In (TLit l) (leaves ts) -> parse_lit_str O [TLit l] = Some (v, p) -> plain_string v.

(** Strings written plainly are read. *)
Definition reads_back (O : oracles) : Prop := forall v, parse_lit_str O [TLit (LStr v [])] = Some (v, []).

(** A value that a second substitution leaves alone: none of the names, no string with a
    percent sign, nor one in its text. *)
Definition inert (O : oracles) (names : list str) (v : value) : Prop :=
  (forall x, In (TIdent x) (leaves (to_tokens v)) -> ~ In x names) /\
  (forall l, In (TLit l) (leaves (to_tokens v)) -> parse_lit_str O [TLit l] = None \/ exists s, l = LStr s [] /\ ~ In 37%N s /\ parse_lit_str O [TLit l] = Some (s, [])) /\
  ~ In 37%N (shown O v).

(** What an input means, with the tokens of the block given. *)
Definition round_of (O : oracles) (env : environment) (ts : list tt) (items : list spec_item) : res (list tt) :=
  let! bs := bindings O env items in Ok (substituted O (fun x => assoc_str x bs) ts).

(** The aliases of every round. *)
Definition round_bindings (O : oracles) (env : environment) {B} (ast : raw_ast B) : res (list venv) :=
  match all_some (rounds ast) with Some rs => mapM (bindings O env) rs | None => Err TypeError end.

(** A parsed input names no empty list of loops. *)
Definition proper {B} (ast : raw_ast B) : Prop := ast_loops ast <> Some [].

(** The use that the compiler finds in the code made for the bindings [bs] of the outer one:
    [header] is what it binds, and its block is that of the flat input with the bindings in place. *)
Definition remaining (O : oracles) (P : parsers) (flat header : raw_ast (list stmt)) (seed : N) (bs : venv) (u : use) : Prop :=
  raised (invocation_for O P u) = [] /\ (u_seed u = seed \/ hash_free flat) /\
  exists inner, p_ast (inv_parsed (invocation_for O P u)) = Ok (Some inner) /\ ast_loops (erase_ast inner) = ast_loops header /\ own_items (erase_ast inner) = own_items header /\
                code inner = substituted O (fun x => assoc_str x bs) (code flat).
Definition nested_in (O : oracles) (P : parsers) (T : list tt) (flat header : raw_ast (list stmt)) (seed : N) (bs : venv) (u : use) : Prop :=
  u_source u = Compose (substituted O (fun x => assoc_str x bs) T) /\ remaining O P flat header seed bs u.

(** [#[compose_item(..)]] before an item. *)
Definition attribute (joint : bool) (ts : list tt) : list tt := [TPunct 35%N joint; TGroup Bracket [TIdent (txt "compose_item"); TGroup Paren ts]].
(** The same for an attribute below another. *)
Definition stacked_in (O : oracles) (P : parsers) (T item : list tt) (flat header : raw_ast (list stmt)) (seed : N) (bs : venv) (u : use) : Prop :=
  u_source u = ComposeItem (substituted O (fun x => assoc_str x bs) T) (substituted O (fun x => assoc_str x bs) item) /\ remaining O P flat header seed bs u.
