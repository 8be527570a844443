(** Vocabulary for code in which what the aliases stand for is written out. *)
From Verif Require Import Base Token Values Ast Item Macro SpecSubst SpecRepro.

(** Some of the aliases of the first code are written out in the second one: the tokens of their
    values, if these come out of the substitution as they are. *)
Inductive written_out (O : oracles) (lookup : str -> option value) : list tt -> list tt -> Prop :=
| WoNil : written_out O lookup [] []
| WoKeep t ts ts' : written_out O lookup ts ts' -> written_out O lookup (t :: ts) (t :: ts')
| WoInside d g g' ts ts' : written_out O lookup g g' -> written_out O lookup ts ts' -> written_out O lookup (TGroup d g :: ts) (TGroup d g' :: ts')
| WoHere x v ts ts' : lookup x = Some v -> substituted O lookup (to_tokens v) = to_tokens v -> written_out O lookup ts ts' ->
    written_out O lookup (TIdent x :: ts) (to_tokens v ++ ts').

(** The same loops and definitions, ids apart. *)
Definition same_definitions (ast ast' : raw_ast (list stmt)) : Prop :=
  ast_loops (erase_ast ast') = ast_loops (erase_ast ast) /\ ast_spec (erase_ast ast') = ast_spec (erase_ast ast).
