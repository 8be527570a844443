(** Vocabulary for two uses one after the other, in either order. *)
From Verif Require Import Base Token Values Ast Env Item Deprecation Interpreter Parse Macro SpecPrograms SpecDeprecation SpecElab SpecMacro SpecRepro SpecNested.

(** The [i]-th use has the loops and definitions of [header] and the code [ts], and yields [c]. *)
Definition yields (O : oracles) (P : parsers) (Y : syntax) (header : raw_ast (list stmt)) (seed : N) (ts : list tt) (uses : list use) (i : nat) (c : list tt) : Prop :=
  exists u ast, nth_error uses i = Some u /\ p_ast (inv_parsed (invocation_for O P u)) = Ok (Some ast) /\ raised (invocation_for O P u) = [] /\
    ast_loops (erase_ast ast) = ast_loops header /\ own_items (erase_ast ast) = own_items header /\ code ast = ts /\
    (u_seed u = seed \/ hash_free header) /\ nth_error (expand_uses O P Y uses) i = Some (Code c).

(** The values of neither are touched by the other. *)
Definition apart (O : oracles) (A : raw_ast (list stmt)) (bssA : list venv) (B : raw_ast (list stmt)) (bssB : list venv) : Prop :=
  (forall bs b, In bs bssA -> In b bs -> inert O (ast_aliases B) (snd b)) /\ (forall bs b, In bs bssB -> In b bs -> inert O (ast_aliases A) (snd b)).
