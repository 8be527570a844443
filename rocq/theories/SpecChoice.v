(** Overloads that are added to the functions and that no call takes in the end. *)
From Coq Require Import String.
From Verif Require Import Base Token Types Values Ast Env Expand Resolve Item Interpreter Parse Macro SpecExtend SpecOverload.
Open Scope list_scope.

Definition overload_of (f : func) : overload := (f_arg_types f, f_out_type f, f_impl f).

(** The functions that the use names are in both tables or in neither; if in both, the second
    may have more overloads, of those that [new] names. *)
Definition more_overloads (new : str -> overload -> Prop) (rows rows' : list row) (u : use) : Prop :=
  forall x, In x (called_by (u_source u)) ->
  match assoc_str x rows, assoc_str x rows' with
  | Some vs, Some vs' => interspersed (new x) vs vs'
  | None, None => True
  | _, _ => False
  end.

(** The resolve phase records no overload of [new] for any call in these definitions. *)
Definition none_taken (env : environment) (new : str -> overload -> Prop) (items : list spec_item) : Prop :=
  forall before x e after sc sc' id m, items = before ++ (x, e) :: after ->
  resolve_items env empty_scope before = Ok sc -> resolve_expr env e sc None = Ok sc' ->
  assoc_N id (sc_calls sc') = Some m -> ~ new (f_name (cm_func m)) (overload_of (cm_func m)).

(** Nor for any call of the use. *)
Definition new_not_taken (P : parsers) (rows : list row) (new : str -> overload -> Prop) (u : use) : Prop :=
  forall ast rws rw, p_ast (parse_source P rows (u_next_id u) (u_source u)) = Ok (Some ast) -> expand ast = Ok rws -> In rw rws ->
  none_taken (table_environment rows (u_seed u) (u_first_id u)) new (spec_items (fst rw)).
