(** Vocabulary for unrolling loops: the rounds of an input as inputs, one after the other. *)
From Coq Require Import String.
From Verif Require Import Base Token Types Values Ast Item Interpreter Parse Macro SpecParse SpecForms.
Open Scope list_scope.

(** A round: its definitions and the block, without loops. *)
Definition round_ast (block : list stmt) (items : list spec_item) : raw_ast (list stmt) :=
  {| ast_loops := None; ast_spec := Some {| spec_items := items; is_comma_used := Some true |}; ast_block := block |}.

(** Results one after the other: all the code, or the first failure. *)
Fixpoint in_sequence (l : list (res (list tt))) : res (list tt) :=
  match l with
  | [] => Ok []
  | r :: l' => let! a := r in let! b := in_sequence l' in Ok (a ++ b)
  end.
Fixpoint outputs_in_sequence (l : list output) : output :=
  match l with
  | [] => Code []
  | Code a :: l' => match outputs_in_sequence l' with Code b => Code (a ++ b) | o => o end
  | o :: _ => o
  end.

(** [v1, v2, ..] and [for x in [v1, v2, ..]]. *)
Fixpoint joined (vs : list (list tt)) : list tt :=
  match vs with
  | [] => []
  | [v] => v
  | v :: r => v ++ comma :: joined r
  end.
Definition loop_text (x : str) (vs : list (list tt)) : list tt :=
  [TIdent (txt "for"); TIdent x; TIdent (txt "in"); TGroup Bracket (joined vs)].

(** One value, not in parentheses, that ends at a comma. *)
Definition one_value (P : parsers) (has_func : str -> bool) (v : list tt) : Prop :=
  v <> [] /\ (forall ts r, v <> TGroup Paren ts :: r) /\
  forall n, exists n' e, expr_at P has_func n v = (n', (e, List.length v, false)).
(** Values that are read alike in the list and in front of [rest]. *)
Fixpoint loop_values_in (P : parsers) (has_func : str -> bool) (rest : list tt) (vs : list (list tt)) : Prop :=
  match vs with
  | [] => True
  | v :: r => one_value P has_func v /\ ignores P v rest /\ (r = [] \/ ignores P v (joined r)) /\
              loop_values_in P has_func rest r
  end.

(** A use of [compose!], by either name. *)
Definition use_text (ts : list tt) (u : use) : Prop := u_source u = Compose ts \/ u_source u = ComposeIdents ts.
