(** C71: expansions in several threads.  [program] and [machine] are in Threads, [enough],
    [alone], [all_distinct], [no_hashing] and [draws] in SpecThreads. *)
From Coq Require Import String Sorted.
From Verif Require Import Base Token Types Values Ast Env Item Deprecation Interpreter Parse Macro UniqueId
  SpecElab SpecPrograms SpecParse SpecDeprecation SpecRepro Threads SpecThreads ThreadProofs Concrete ConcreteSpecs ConcreteRuns ConcreteParse.
Open Scope list_scope.

(** C71: threads expand their uses in any interleaving of their requests to the counter, and
    draw any number of further ids in between.  Whatever a thread has yielded when it is done,
    it would have yielded alone in the process with the seeds it has drawn; no two uses, of
    one thread or of several, have the same seed. *)
Theorem C71_any_schedule : forall O P Y c threads schedule,
  Forall (Forall (enough O P)) threads -> (c + N.of_nat (List.length schedule) < 2 ^ 64)%N ->
  exists seeds, all_distinct seeds /\ (forall i, StronglySorted N.lt (seeds i)) /\
  forall i us os, nth_error threads i = Some us ->
    nth_error (snd (machine (c, map (thread_program O P Y) threads) schedule)) i = Some (Return os) ->
    List.length (seeds i) = List.length us /\ os = expand_uses O P Y (alone us (seeds i)).
Proof. exact any_schedule. Qed.
Print Assumptions C71_any_schedule.

(** Uses that do not hash yield the same in every schedule, whatever other threads do. *)
Theorem C71_deterministic : forall O P Y c threads schedule i us os,
  Forall (Forall (enough O P)) threads -> (c + N.of_nat (List.length schedule) < 2 ^ 64)%N ->
  nth_error threads i = Some us -> Forall (fun u => no_hashing O P (fst u)) us ->
  nth_error (snd (machine (c, map (thread_program O P Y) threads) schedule)) i = Some (Return os) ->
  os = expand_uses O P Y (map (fun u => {| u_source := fst u; u_seed := 0; u_first_id := 0; u_next_id := 0 |}) us).
Proof. exact without_hashes. Qed.
Print Assumptions C71_deterministic.

(** No thread waits for another: it is done when it has had its turns. *)
Theorem C71_finishes : forall O P Y c threads schedule i us,
  nth_error threads i = Some us -> (draws O us <= count_occ Nat.eq_dec schedule i)%nat ->
  exists os, nth_error (snd (machine (c, map (thread_program O P Y) threads) schedule)) i = Some (Return os).
Proof. exact all_finish. Qed.
Print Assumptions C71_finishes.

(** Enough ids can be drawn for every source. *)
Theorem C71_plans : forall O P s, exists plan, enough O P (s, plan).
Proof. exact some_plan. Qed.
Print Assumptions C71_plans.

(** Hashes differ from schedule to schedule. *)
Theorem C71_hash_refuted : exists O P Y c threads schedule schedule' os os',
  Forall (Forall (enough O P)) threads /\
  snd (machine (c, map (thread_program O P Y) threads) schedule) = map Return os /\
  snd (machine (c, map (thread_program O P Y) threads) schedule') = map Return os' /\ os <> os'.
Proof.
  exists ascii, ascii_parsers, syntax0, 0%N.
  set (u := (Compose [i "a"; p1 "="; i "hash"; paren [i "x"]; p1 ","; brace (fn_named "a")], repeat true 4)).
  exists [[u]; [u]], (repeat 0 39 ++ repeat 1 39), (repeat 1 39 ++ repeat 0 39).
  eexists [[_]; [_]], [[_]; [_]]. split.
  - repeat constructor; intros ast H; vm_compute in H; injection H as <-; vm_compute; repeat constructor.
  - split; [vm_compute; reflexivity|]. split; [vm_compute; reflexivity|]. discriminate.
Qed.
Print Assumptions C71_hash_refuted.

(** A use that does not hash and raises no warning yields the same in every thread. *)
Theorem C71_any_placement : forall O P Y c threads schedule i us os k u,
  Forall (Forall (enough O P)) threads -> (c + N.of_nat (List.length schedule) < 2 ^ 64)%N ->
  nth_error threads i = Some us ->
  nth_error (snd (machine (c, map (thread_program O P Y) threads) schedule)) i = Some (Return os) ->
  nth_error us k = Some u -> no_hashing O P (fst u) -> raised (invocation_of O P 0 0 0 (fst u)) = [] ->
  exists o, nth_error os k = Some o /\
    expand_uses O P Y [{| u_source := fst u; u_seed := 0; u_first_id := 0; u_next_id := 0 |}] = [o].
Proof. exact any_placement. Qed.
Print Assumptions C71_any_placement.

(** The thread a use runs in matters if it raises a warning: the macro named is the first
    one of the thread. *)
Theorem C71_placement_refuted : exists O P Y u v,
  enough O P u /\ enough O P v /\ no_hashing O P (fst u) /\ no_hashing O P (fst v) /\
  exists o o' o2, snd (machine (0%N, map (thread_program O P Y) [[u; v]]) (repeat 0 80)) = [Return [o; o']] /\
    snd (machine (0%N, map (thread_program O P Y) [[u]; [v]]) (repeat 0 40 ++ repeat 1 40)) = [Return [o]; Return [o2]] /\ o' <> o2.
Proof.
  exists ascii, ascii_parsers, syntax1,
    (Compose [i "a"; p1 "="; i "x"; p1 ","; brace (fn_named "a")], repeat true 4),
    (ComposeIdents [i "a"; p1 "="; i "upper"; paren [i "x"]; p1 ";"; brace (fn_named "a")], repeat true 4).
  do 2 (split; [intros ast H; vm_compute in H; injection H as <-; repeat (apply Forall_nil || apply Forall_cons); vm_compute; repeat constructor|]).
  do 2 (split; [intros ast H; vm_compute in H; injection H as <-; unfold hash_free; repeat constructor|]).
  eexists _, _, _. split; [vm_compute; reflexivity|]. split; [vm_compute; reflexivity|]. discriminate.
Qed.
Print Assumptions C71_placement_refuted.

(** [a = concat(upper(x), y), { fn a() {} }] and a use of [hash] in two threads that take
    turns, with two ids nobody needs. *)
Example C71_example :
  let u := (Compose [i "a"; p1 "="; i "concat"; paren [i "upper"; paren [i "x"]; p1 ","; i "y"]; p1 ","; brace (fn_named "a")], [true; true; false; true; true; true; true; false]) in
  let h := (Compose [i "a"; p1 "="; i "hash"; paren [i "x"]; p1 ","; brace (fn_named "a")], [true; true; true]) in
  let threads := [[u; h]; [h]] in
  let m := machine (5%N, map (thread_program ascii ascii_parsers syntax0) threads) (flat_map (fun _ => [1; 0]) (seq 0 60) ++ repeat 0 60) in
  Forall (Forall (enough ascii ascii_parsers)) threads /\ no_hashing ascii ascii_parsers (fst u) /\
  draws ascii [u; h] = 81 /\
  exists a b, snd m = [Return [Code (fn_named "Xy"); Code a]; Return [Code b]] /\ a <> b.
Proof.
  split; [|split].
  - repeat (apply Forall_nil || apply Forall_cons); intros ast H; vm_compute in H; injection H as <-; repeat (apply Forall_nil || apply Forall_cons); vm_compute; repeat constructor.
  - intros ast H; vm_compute in H; injection H as <-; unfold hash_free; repeat constructor.
  - split; [vm_compute; reflexivity|]. eexists _, _. split; [vm_compute; reflexivity|discriminate].
Qed.
