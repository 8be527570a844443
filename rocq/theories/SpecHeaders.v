(** Vocabulary for the headers of uses with other identifiers in them. *)
From Coq Require Import String.
From Verif Require Import Base Token Types Values Ast Env Item Interpreter Parse Macro SpecRepro SpecRename.
Open Scope list_scope.

Section Headers.
Context (r : naming).

(** ** What was read, with other identifiers *)
Definition rename_value (v : value) : value :=
  match v with
  | VIdent x => VIdent (r x)
  | VPath ts => VPath (rename r ts)
  | VType ts => VType (rename r ts)
  | VExpr ts => VExpr (rename r ts)
  | VTokens ts => VTokens (rename r ts)
  | VRaw ts => VRaw (rename r ts)
  | VLitInt _ _ | VLitStr _ _ => v
  end.
Fixpoint rename_expr (e : expr) : expr :=
  match e with
  | EValue id v => EValue id (rename_value v)
  | ECall id name args raw => ECall id (r name) (map rename_expr args) (option_map (fun p => (fst p, rename r (snd p))) raw)
  end.
Definition rename_pattern (p : loop_alias) : loop_alias :=
  match p with LASimple x => LASimple (r x) | LATuple t => LATuple (map_tuple r t) end.
Definition rename_loop (l : loop_item) : loop_item :=
  {| loop_pattern := rename_pattern (loop_pattern l); loop_values := map (map_source rename_expr) (loop_values l) |}.
Definition rename_definition (it : spec_item) : spec_item := (r (fst it), rename_expr (snd it)).
Definition rename_spec (s : alias_spec) : alias_spec :=
  {| spec_items := map rename_definition (spec_items s); is_comma_used := is_comma_used s |}.
Definition rename_ast (a : raw_ast (list stmt)) : raw_ast (list stmt) :=
  {| ast_loops := option_map (map rename_loop) (ast_loops a); ast_spec := option_map rename_spec (ast_spec a);
     ast_block := rename_block r (ast_block a) |}.
Definition rename_parsed (p : parsed) : parsed := {| p_scope := p_scope p; p_ast := match p_ast p with Ok o => Ok (option_map rename_ast o) | e => e end |}.

(** ** What is assumed of syn: it reads the same things, with the other identifiers.  Nothing
    becomes or ceases to be a keyword; numbers and strings stay. *)
Definition renamed_node (o : option (list tt * nat * bool)) : option (list tt * nat * bool) :=
  option_map (fun '(ts, k, u) => (rename r ts, k, u)) o.
Record reads_alike (P : parsers) : Prop := {
  alike_words : spared r (txt "for") /\ spared r (txt "in") /\ spared r [95%N];
  alike_ident : forall x, ident_allowed P (r x) = ident_allowed P x;
  alike_int : forall ts, pre_lit_int P (rename r ts) = pre_lit_int P ts;
  alike_str : forall ts, pre_lit_str P (rename r ts) = pre_lit_str P ts;
  alike_path : forall ts, pre_path P (rename r ts) = renamed_node (pre_path P ts);
  alike_type : forall ts, pre_type P (rename r ts) = renamed_node (pre_type P ts);
  alike_expr : forall ts, pre_expr P (rename r ts) = renamed_node (pre_expr P ts);
}.
(** The same names are functions. *)
Definition same_functions (has_func : str -> bool) : Prop := forall x, has_func (r x) = has_func x.
End Headers.
