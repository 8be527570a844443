(** The macros with another table of functions in place of funcs.rs, and the functions that
    the input of a use names. *)
From Coq Require Import String.
From Verif Require Import Base Token Types Values Ast Env Item Deprecation Interpreter Parse Macro Threads.
Open Scope list_scope.

(** ** The names directly before parentheses, outside braces *)
Definition call_head (t : tt) (r : list tt) : list str :=
  match t, r with
  | TIdent x, TGroup Paren _ :: _ => [x]
  | _, _ => []
  end.
Fixpoint called1 (t : tt) : list str :=
  match t with
  | TGroup Paren ts | TGroup Bracket ts =>
      (fix go (l : list tt) : list str := match l with [] => [] | t :: r => call_head t r ++ called1 t ++ go r end) ts
  | _ => []
  end.
Fixpoint called (ts : list tt) : list str :=
  match ts with [] => [] | t :: r => call_head t r ++ called1 t ++ called r end.
Definition called_by (s : source) : list str :=
  match s with
  | Compose ts | ComposeIdents ts => called ts
  | ComposeItem attr _ => called attr
  end.

(** ** Another table *)
Section Table.
Context (O : oracles) (P : parsers) (Y : syntax) (rows : list row).
Definition table_environment (seed first_id : N) : environment := {| e_seed := seed; e_funcs := number_rows first_id rows |}.
Definition table_knows (name : str) : bool := match assoc_str name rows with Some _ => true | None => false end.
Definition parse_source (next_id : N) (s : source) : parsed :=
  match s with
  | Compose ts | ComposeIdents ts => parse_func_macro P table_knows next_id ts
  | ComposeItem attr item => parse_attr_macro P table_knows next_id attr item
  end.
Fixpoint run_with (t : thread) (uses : list use) : thread * list output :=
  match uses with
  | [] => (t, [])
  | u :: r =>
      let (t1, o) := compose_core_in O Y (table_environment (u_seed u) (u_first_id u)) (prefix_of (u_source u)) (parse_source (u_next_id u) (u_source u)) t in
      let (t2, os) := run_with t1 r in
      (t2, o :: os)
  end.
Definition expand_uses_with (uses : list use) : list output := snd (run_with None uses).
End Table.

(** The tables have the same overloads of the functions that the use names. *)
Definition same_functions (rows rows' : list row) (u : use) : Prop :=
  forall x, In x (called_by (u_source u)) -> assoc_str x rows = assoc_str x rows'.
