(** Shorthands for whole invocations in examples. *)
From Coq Require Import String.
From Verif Require Import Base Token Types Values Ast Env Item Deprecation Interpreter Concrete ConcreteSpecs.
Open Scope list_scope.

(** A traversal that sees one item in a block. *)
Fixpoint leading_attrs (ts : list tt) : list attr * list tt :=
  match ts with
  | TPunct c false :: TGroup Bracket m :: r =>
      if N.eqb c 35 then let (a, r') := leading_attrs r in ({| is_inner := false; meta := m |} :: a, r') else ([], ts)
  | _ => ([], ts)
  end.
Definition one_item (ts : list tt) : forest :=
  match ts with
  | [] => []
  | _ => let (a, r) := leading_attrs ts in [DNode a false (map DTok r)]
  end.
Definition syntax0 : syntax := {| reparse := any_node; as_forest := one_item |}.

Definition call_macro (prefix : string) (semicolons : bool) (ast : raw_ast (list stmt)) : invocation :=
  {| inv_prefix := txt prefix; inv_parsed := {| p_scope := Some semicolons; p_ast := Ok (Some ast) |};
     inv_seed := 7; inv_first_id := 100 |}.
Definition failed_macro (prefix : string) (semicolons : bool) : invocation :=
  {| inv_prefix := txt prefix; inv_parsed := {| p_scope := Some semicolons; p_ast := Ok None |};
     inv_seed := 7; inv_first_id := 100 |}.

(** [name = x .. { fn name() {} }] *)
Definition fn_ast (items : list spec_item) : raw_ast (list stmt) :=
  {| ast_loops := None; ast_spec := Some (spec_of items);
     ast_block := [SItem (IFn [] [] [i "fn"; i "name"; paren []] [])] |}.
Definition semicolon_note (prefix : string) : str :=
  txt (prefix ++ "Using semicolons as separators is deprecated, use commas instead").
