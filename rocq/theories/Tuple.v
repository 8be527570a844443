(** Model of the two breadth-first iterators of /repo/src/ast/tuple.rs. *)
From Verif Require Import Base Token Types Values Ast.

Section Tuple.
Context {V : Type}.

Fixpoint tv_size (t : tuple_value V) : nat :=
  match t with
  | TVValue _ => 1
  | TVTuple l => S ((fix go (l : tuple V) : nat :=
                       match l with [] => 0 | x :: r => tv_size x + go r end) l)
  end.
Definition tuple_size (q : tuple V) : nat := fold_right (fun t n => tv_size t + n) 0 q.

(** tuple.rs 48-62 iterated until [None]: [iter_recursive().collect()].  The queue
    is the [VecDeque]; [pop_front], [extend] at the back.  Fuel bounds the number
    of pops. *)
Fixpoint bfs_values (fuel : nat) (queue : tuple V) : res (list V) :=
  match queue with
  | [] => Ok []
  | t :: rest =>
      match fuel with
      | 0 => Panic PFuel
      | S fuel' =>
          match t with
          | TVValue v => let! vs := bfs_values fuel' rest in Ok (v :: vs)
          | TVTuple l => bfs_values fuel' (rest ++ l)
          end
      end
  end.
Definition iter_recursive (t : tuple V) : res (list V) := bfs_values (tuple_size t) t.

(** tuple.rs 159-173 iterated until [None]: [iter_destructuring().collect()]. *)
Fixpoint bfs_kinds (fuel : nat) (queue : tuple V) : res (list (tuple_value V)) :=
  match queue with
  | [] => Ok []
  | t :: rest =>
      match fuel with
      | 0 => Panic PFuel
      | S fuel' =>
          match t with
          | TVValue _ => let! ks := bfs_kinds fuel' rest in Ok (t :: ks)
          | TVTuple l => let! ks := bfs_kinds fuel' (rest ++ l) in Ok (t :: ks)
          end
      end
  end.
Definition iter_destructuring (t : tuple V) : res (list (tuple_value V)) :=
  bfs_kinds (tuple_size t) t.
End Tuple.
