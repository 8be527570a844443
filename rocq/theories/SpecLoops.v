(** Vocabulary for the algebra of loops. *)
From Coq Require Import String Permutation.
From Verif Require Import Base Token Types Values Ast Env Item Deprecation Interpreter SpecPrograms SpecParse SpecMacro SpecUnroll.
Open Scope list_scope.

(** The input with other loops. *)
Definition with_loops {B} (ls : list loop_item) (ast : raw_ast B) : raw_ast B :=
  {| ast_loops := Some ls; ast_spec := ast_spec ast; ast_block := ast_block ast |}.
Definition loop (p : loop_alias) (vs : list loop_source_value) : loop_item := {| loop_pattern := p; loop_values := vs |}.

(** What the rounds of an input yield, each on its own; nothing if some value does not fit its
    pattern. *)
Definition codes (O : oracles) (Y : syntax) (env : environment) (t : thread) (ast : raw_ast (list stmt)) : option (list (res (list tt))) :=
  option_map (map (fun items => execute O Y env t (round_ast (ast_block ast) items))) (all_some (rounds ast)).

(** The same loops with their values in another order. *)
Definition shuffled (l l' : loop_item) : Prop := loop_pattern l = loop_pattern l' /\ Permutation (loop_values l) (loop_values l').

(** No value of one loop mentions a name of the other. *)
Definition apart (l l' : loop_item) : Prop :=
  forall x e, In x (pattern_aliases (loop_pattern l)) -> In e (loop_exprs l') -> ~ In x (mentions e).
Definition unrelated (l l' : loop_item) : Prop := apart l l' /\ apart l' l.

(** Unrelated neighbours exchanged any number of times. *)
Inductive exchanged_loops : list loop_item -> list loop_item -> Prop :=
| exchanged_none : forall ls, exchanged_loops ls ls
| exchanged_step : forall pre l l' post ls, unrelated l l' ->
    exchanged_loops (pre ++ l' :: l :: post) ls -> exchanged_loops (pre ++ l :: l' :: post) ls.
