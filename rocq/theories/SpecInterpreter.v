(** Specification of a whole expansion. *)
From Verif Require Import Base Token Types Values Ast Env Item Deprecation Interpreter SpecProduct.

(** The input [for p1 in vs1 for p2 in vs2 .. spec { block }]. *)
Definition loops_over (patterns : list loop_alias) (values : list (list loop_source_value))
  (spec : option alias_spec) (block : list stmt) : raw_ast (list stmt) :=
  {| ast_loops := Some (map (fun pv => {| loop_pattern := fst pv; loop_values := snd pv |}) (combine patterns values));
     ast_spec := spec; ast_block := block |}.

(** The same for one choice of values. *)
Definition one_round (patterns : list loop_alias) (choice : list loop_source_value)
  (spec : option alias_spec) (block : list stmt) : raw_ast (list stmt) :=
  loops_over patterns (map (fun v => [v]) choice) spec block.
