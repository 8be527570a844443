(** Model of /repo/src/util/unique_id.rs. *)
From Verif Require Import Base.

(** unique_id.rs 3, 6-11: [AtomicU64::fetch_add(1)] returns the old value and wraps; the
    updates of one atomic have a total order. *)
Definition next_unique_id (counter : N) : N * N := (counter, ((counter + 1) mod 2 ^ 64)%N).

(** Threads are numbered.  An interleaving is the order in which their (atomic) requests
    take effect; the result lists who received what. *)
Fixpoint requests (counter : N) (threads : list nat) : list (nat * N) :=
  match threads with
  | [] => []
  | t :: r => let (id, counter') := next_unique_id counter in (t, id) :: requests counter' r
  end.
