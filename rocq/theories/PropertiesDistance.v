(** C32 and C39.  [leaves_between], [position], [reads] and [advance] are in SpecDistance,
    [leaves] in SpecSubst. *)
From Coq Require Import String.
From Verif Require Import Base Token TokenDistance UniqueId SpecSubst SpecDistance DistanceProofs Concrete.
Open Scope list_scope.

(** C32: the distance is the number of leaves between the positions, as far as the first
    one can see. *)
Theorem C32_counts_leaves : forall ts a b, position (buffer ts) a -> position (buffer ts) b -> ptr a <= ptr b ->
  token_distance (buffer ts) a b = Ok (leaves_between (buffer ts) (ptr a) (Nat.min (ptr b) (scope a))).
Proof. exact distance_general. Qed.
Print Assumptions C32_counts_leaves.

(** Two positions in the same group (or both at top level): exactly the leaves between. *)
Theorem C32_same_group : forall ts a b, position (buffer ts) a -> position (buffer ts) b -> scope a = scope b ->
  token_distance (buffer ts) a b = Ok (leaves_between (buffer ts) (Nat.min (ptr a) (ptr b)) (Nat.max (ptr a) (ptr b))).
Proof. exact distance_same_scope. Qed.
Print Assumptions C32_same_group.

(** In terms of token trees: reading [k] of the tokens ahead moves by the leaves in them. *)
Theorem C32_reading : forall ts c l k, position (buffer ts) c -> reads (buffer ts) c l -> k <= List.length l ->
  exists c', advance k (buffer ts) c = Some c' /\ reads (buffer ts) c' (skipn k l) /\
    token_distance (buffer ts) c c' = Ok (List.length (leaves (firstn k l))).
Proof. exact distance_of_advance. Qed.
Print Assumptions C32_reading.
Theorem C32_reads_stream : forall ts, reads (buffer ts) (begin (buffer ts)) ts.
Proof. exact reads_begin. Qed.
Print Assumptions C32_reads_stream.
Theorem C32_reads_group : forall ts c d l r, position (buffer ts) c -> reads (buffer ts) c (TGroup d l :: r) ->
  exists i a, any_group (buffer ts) c = Some (i, a) /\ position (buffer ts) i /\ reads (buffer ts) i l.
Proof. exact subgroup_reads. Qed.
Print Assumptions C32_reads_group.

Theorem C32_symmetric : forall ts a b, position (buffer ts) a -> position (buffer ts) b ->
  token_distance (buffer ts) a b = token_distance (buffer ts) b a.
Proof. exact distance_symmetric. Qed.
Print Assumptions C32_symmetric.

Theorem C32_zero_partial : forall ts a b, position (buffer ts) a -> position (buffer ts) b -> scope a = scope b ->
  (token_distance (buffer ts) a b = Ok 0 <->
   forall k t, Nat.min (ptr a) (ptr b) <= k -> k < Nat.max (ptr a) (ptr b) -> nth_error (buffer ts) k <> Some (ELeaf t)).
Proof. exact distance_zero. Qed.
Print Assumptions C32_zero_partial.

Theorem C32_additive_partial : forall ts a b c, position (buffer ts) a -> position (buffer ts) b -> position (buffer ts) c ->
  scope a = scope b -> scope b = scope c -> ptr a <= ptr b -> ptr b <= ptr c ->
  exists x y, token_distance (buffer ts) a b = Ok x /\ token_distance (buffer ts) b c = Ok y /\
    token_distance (buffer ts) a c = Ok (x + y).
Proof. exact distance_additive. Qed.
Print Assumptions C32_additive_partial.

Example C32_example :
  let ts := [i "a"; paren [i "b"; brace [i "c"; paren []]; i "d"]; i "e"] in
  let a := begin (buffer ts) in
  exists b, advance 2 (buffer ts) a = Some b /\ reads (buffer ts) a ts /\ position (buffer ts) a /\ position (buffer ts) b /\
    scope a = scope b /\ token_distance (buffer ts) a b = Ok 4 /\ token_distance (buffer ts) b a = Ok 4.
Proof.
  intros ts a. eexists. split; [vm_compute; reflexivity|]. split; [apply reads_begin|]. split; [apply at_begin|].
  split; [eapply advance_position; [apply at_begin|exact (eq_refl : advance 2 (buffer ts) a = Some _)]|].
  repeat split; vm_compute; reflexivity.
Qed.

(** Not so from inside a group to the outside: in [(b) c d], from before [b] to before [d]
    there are two leaves, but the distance is one, and from before [c] it is one too. *)
Theorem C32_refuted : exists ts a b c, position (buffer ts) a /\ position (buffer ts) b /\ position (buffer ts) c /\
  ptr a < ptr b /\ ptr b < ptr c /\
  leaves_between (buffer ts) (ptr a) (ptr c) = 2 /\
  token_distance (buffer ts) a b = Ok 1 /\ token_distance (buffer ts) b c = Ok 1 /\ token_distance (buffer ts) a c = Ok 1.
Proof.
  exists [paren [i "b"]; i "c"; i "d"]. set (buf := buffer _).
  destruct (any_group buf (begin buf)) as [[x y]|] eqn:E; [|discriminate E].
  destruct (token_tree buf y) as [z|] eqn:F; [|vm_compute in E; injection E as <- <-; discriminate F].
  exists x, y, z.
  assert (Py : position buf y).
  { eapply step; [apply at_begin|]. vm_compute in E. injection E as <- <-. vm_compute. reflexivity. }
  split; [eapply enter; [apply at_begin|exact E]|]. split; [exact Py|]. split; [eapply step; [exact Py|exact F]|].
  vm_compute in E. injection E as <- <-. vm_compute in F. injection F as <-. vm_compute. repeat split; auto.
Qed.
Print Assumptions C32_refuted.

(** C39: requests of any threads in any interleaving, the counter starting anywhere. *)
Theorem C39_unique : forall c threads i j t u id, (c < 2 ^ 64)%N -> (N.of_nat (List.length threads) <= 2 ^ 64)%N ->
  nth_error (requests c threads) i = Some (t, id) -> nth_error (requests c threads) j = Some (u, id) -> i = j.
Proof. exact ids_unique. Qed.
Print Assumptions C39_unique.

(** Every request is answered. *)
Theorem C39_all_answered : forall threads c, map fst (requests c threads) = threads.
Proof. exact requests_threads. Qed.
Print Assumptions C39_all_answered.

(** The bound is sharp. *)
Theorem C39_bound_is_sharp : forall c threads i t u id id', (c < 2 ^ 64)%N ->
  nth_error (requests c threads) i = Some (t, id) ->
  nth_error (requests c threads) (i + N.to_nat (2 ^ 64)) = Some (u, id') -> id = id'.
Proof. exact ids_repeat. Qed.
Print Assumptions C39_bound_is_sharp.

Example C39_example :
  requests (2 ^ 64 - 2) [7; 3; 3; 7] = [(7, (2 ^ 64 - 2)%N); (3, (2 ^ 64 - 1)%N); (3, 0%N); (7, 1%N)].
Proof. vm_compute. reflexivity. Qed.
