(** Vocabulary for expansions in several threads. *)
From Coq Require Import String.
From Verif Require Import Base Token Types Values Ast Env Item Deprecation Interpreter Parse Macro SpecElab SpecPrograms SpecParse SpecRepro Threads.
Open Scope list_scope.

(** Enough ids are kept for the nodes of the input. *)
Definition enough (O : oracles) (P : parsers) (u : planned) : Prop :=
  forall ast, p_ast (inv_parsed (invocation_of O P 0 0 0 (fst u))) = Ok (Some ast) ->
  Forall (fun id => (N.to_nat id < count_occ Bool.bool_dec (snd u) true)%nat) (flat_map ids (ast_exprs ast)).

(** The uses of a thread alone in the process, with the seeds given. *)
Definition alone (us : list planned) (seeds : list N) : list use :=
  map (fun p => {| u_source := fst (fst p); u_seed := snd p; u_first_id := 0; u_next_id := 0 |}) (combine us seeds).

(** No two uses, of one thread or of several, have the same seed. *)
Definition all_distinct (seeds : nat -> list N) : Prop :=
  forall i j p q s, nth_error (seeds i) p = Some s -> nth_error (seeds j) q = Some s -> i = j /\ p = q.

(** Not one call of [hash] in a source. *)
Definition no_hashing (O : oracles) (P : parsers) (s : source) : Prop :=
  forall ast, p_ast (inv_parsed (invocation_of O P 0 0 0 s)) = Ok (Some ast) -> hash_free ast.

(** How many ids the uses of a thread draw. *)
Fixpoint draws (O : oracles) (us : list planned) : nat :=
  match us with
  | [] => 0
  | u :: r => S (overloads O + List.length (snd u) + draws O r)
  end.
