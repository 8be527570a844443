(** The grammar of the macros' input, as relations between tokens and what they stand for.
    All ids are 0 (compare [erase_ast], SpecRepro.v).

    [u] says that one of syn's parsers left tokens unread inside a group, which makes syn
    reject the input in the end. *)
From Coq Require Import String.
From Verif Require Import Base Token Types Values Ast Item Parse SpecSubst SpecParse.
Open Scope list_scope.

Definition commab (t : tt) : bool := match t with TPunct c _ => N.eqb 44 c | _ => false end.

(** [a, b, c] or [a, b, c,]: each item begins where the comma after the one before it ends. *)
Inductive listed {A} (item : list tt -> A -> nat -> Prop) : list tt -> list A -> Prop :=
| listed_none : listed item [] []
| listed_last : forall ts a k, ts <> [] -> item ts a k -> skipn k ts = [] -> listed item ts [a]
| listed_more : forall ts a k s r l, item ts a k -> skipn k ts = s :: r -> commab s = true -> listed item r l ->
    listed item ts (a :: l).

(** The pieces between commas; one comma may follow the last. *)
Fixpoint split_commas (ts : list tt) : list (list tt) :=
  match ts with
  | [] => [[]]
  | t :: r =>
      if commab t then [] :: split_commas r
      else match split_commas r with p :: ps => (t :: p) :: ps | [] => [[t]] end
  end.
Fixpoint drop_last_empty (l : list (list tt)) : list (list tt) :=
  match l with
  | [] => []
  | p :: r => match p, r with [], [] => [] | _, _ => p :: drop_last_empty r end
  end.
Definition pieces (ts : list tt) : list (list tt) := drop_last_empty (split_commas ts).

Section Grammar.
Context (P : parsers) (has_func : str -> bool).

(** ** Expressions *)
(** A value that ends at a comma: the class that takes the most tokens, the first of equals;
    all tokens up to the comma if there is none. *)
Definition value_at (ts : list tt) (v : value) (k : nat) (u : bool) : Prop :=
  (exists c, takes P c ts v k u /\ ends_at commab ts k /\
     forall c' v' k' u', takes P c' ts v' k' u' -> ends_at commab ts k' ->
       List.length (leaves (firstn k' ts)) < List.length (leaves (firstn k ts)) \/
       (List.length (leaves (firstn k' ts)) = List.length (leaves (firstn k ts)) /\ rank c <= rank c')) \/
  ((forall c v' k' u', takes P c ts v' k' u' -> ~ ends_at commab ts k') /\
   u = false /\ k = List.length (hd [] (split_commas ts)) /\ v = VTokens (hd [] (split_commas ts))).

(** The name of a function and parentheses. *)
Definition call_head (ts : list tt) : Prop :=
  exists f inner rest, ts = TIdent f :: TGroup Paren inner :: rest /\ ident_allowed P f = true /\ has_func f = true.

Inductive reads : list tt -> expr -> nat -> bool -> Prop :=
| reads_value : forall ts v k u, ~ call_head ts -> value_at ts v k u -> reads ts (EValue 0 v) k u
(* every piece between commas is one expression *)
| reads_call : forall f inner rest args, ident_allowed P f = true -> has_func f = true ->
    Forall2 (fun p e => exists k, reads p e k false /\ skipn k p = []) (pieces inner) args ->
    reads (TIdent f :: TGroup Paren inner :: rest) (ECall 0 f args (Some (0%N, inner))) 2 false
(* or the arguments are dropped: only their tokens remain *)
| reads_call_dropped : forall f inner rest p e k u, ident_allowed P f = true -> has_func f = true ->
    In p (pieces inner) -> reads p e k u -> skipn k p <> [] \/ u = true ->
    reads (TIdent f :: TGroup Paren inner :: rest) (ECall 0 f [] (Some (0%N, inner))) 2 false.

(** ** Loops *)
Definition in_parens (ts inner : list tt) : Prop := exists rest, ts = TGroup Paren inner :: rest.
(** An expression or a tuple. *)
Inductive tuple_value_at : list tt -> tuple_value expr * bool -> nat -> Prop :=
| tuple_leaf : forall ts e k u, (forall inner, ~ in_parens ts inner) -> reads ts e k u -> tuple_value_at ts (TVValue e, u) k
| tuple_nested : forall ts inner l, in_parens ts inner -> listed tuple_value_at inner l ->
    tuple_value_at ts (TVTuple (map fst l), existsb snd l) 1.
(** The values of a loop: tuples, and expressions which are not tuples. *)
Inductive source_at : list tt -> loop_source_value * bool -> nat -> Prop :=
| source_tuple : forall ts inner l, in_parens ts inner -> listed tuple_value_at inner l ->
    source_at ts (LSTuple (map fst l), existsb snd l) 1
| source_value : forall ts e k u, (forall inner l, in_parens ts inner -> ~ listed tuple_value_at inner l) ->
    reads ts e k u -> source_at ts (LSValue e, u) k.
(** A name or a tuple of patterns. *)
Inductive pattern_at : list tt -> tuple_value alias -> nat -> Prop :=
| pattern_name : forall x rest, ident_allowed P x = true -> pattern_at (TIdent x :: rest) (TVValue x) 1
| pattern_tuple : forall ts inner l, in_parens ts inner -> listed pattern_at inner l -> pattern_at ts (TVTuple l) 1.
Inductive loop_alias_at : tt -> loop_alias -> Prop :=
| alias_name : forall x, ident_allowed P x = true -> loop_alias_at (TIdent x) (LASimple x)
| alias_tuple : forall inner l, listed pattern_at inner l -> loop_alias_at (TGroup Paren inner) (LATuple l).

(** [for alias in [values]], any number of times. *)
Inductive loops_at : list tt -> list loop_item -> bool -> list tt -> Prop :=
| no_loop : forall ts, (forall r, ts <> TIdent (txt "for") :: r) -> loops_at ts [] false ts
| one_more_loop : forall pat al inner l r items u rest, loop_alias_at pat al -> listed source_at inner l -> loops_at r items u rest ->
    loops_at (TIdent (txt "for") :: pat :: TIdent (txt "in") :: TGroup Bracket inner :: r)
      ({| loop_pattern := al; loop_values := map fst l |} :: items) (existsb snd l || u) rest.

(** ** Definitions *)
(** [x = value] and what follows it. *)
Inductive definition_at : list tt -> spec_item -> bool -> list tt -> Prop :=
| definition_at_ : forall x j vs e k u, ident_allowed P x = true -> reads vs e k u ->
    definition_at (TIdent x :: TPunct 61%N j :: vs) (x, e) u (skipn k vs).
(** Definitions with separators of one kind; the last one stands at the end or is followed by
    a separator and no name. *)
Inductive definitions_at (c : bool) : list tt -> list spec_item -> option bool -> bool -> list tt -> Prop :=
| last_definition : forall ts d u, definition_at ts d u [] -> definitions_at c ts [d] None u []
| last_definition_sep : forall ts d u s r, definition_at ts d u (s :: r) -> separates c s -> ~ at_ident P r ->
    definitions_at c ts [d] (Some c) u r
| more_definitions_at : forall ts d u s r ds used u' rest, definition_at ts d u (s :: r) -> separates c s -> at_ident P r ->
    definitions_at c r ds used u' rest -> definitions_at c ts (d :: ds) (Some c) (u || u') rest.

(** ** The input *)
Inductive header_at : list tt -> option (list loop_item) -> option alias_spec -> bool -> list tt -> Prop :=
| header_at_ : forall ts loops u ts1 spec u' rest, loops_at ts loops u ts1 -> spec_at ts1 spec u' rest ->
    header_at ts (match loops with [] => None | _ => Some loops end) spec (u || u') rest
with spec_at : list tt -> option alias_spec -> bool -> list tt -> Prop :=
| no_spec : forall ts, ~ at_ident P ts -> spec_at ts None false ts
| some_spec : forall ts c items used u rest, at_ident P ts -> definitions_at c ts items used u rest ->
    spec_at ts (Some {| spec_items := items; is_comma_used := used |}) u rest.

(** [compose!]: loops, definitions, the block, and perhaps one more separator of the kind the
    definitions use. *)
Inductive func_input (ts : list tt) : raw_ast (list stmt) -> Prop :=
| func_input_ : forall loops spec rest block k, header_at ts loops spec false rest ->
    pre_block P rest = Some (block, k, false) ->
    (skipn k rest = [] \/
     exists s c, skipn k rest = [s] /\ separates c s /\ forall sp, spec = Some sp -> is_comma_used sp = Some c) ->
    func_input ts {| ast_loops := loops; ast_spec := spec; ast_block := block |}.
(** [#[compose_item]]: loops and definitions, and perhaps one separator more than the
    definitions take, of any kind; the item is the block. *)
Inductive attr_input (ts item : list tt) : raw_ast (list stmt) -> Prop :=
| attr_input_ : forall loops spec rest block, header_at ts loops spec false rest ->
    pre_block P [TGroup Brace item] = Some (block, 1, false) ->
    (rest = [] \/ exists s c, rest = [s] /\ separates c s /\ spec <> None) ->
    attr_input ts item {| ast_loops := loops; ast_spec := spec; ast_block := block |}.
End Grammar.
