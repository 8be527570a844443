(** Specification vocabulary for tuples: positions and shapes. *)
From Verif Require Import Base Token Types Values Ast.

(** The leaf at a path of child indices. *)
Fixpoint leaf_at {V} (p : list nat) (t : tuple V) : option V :=
  match p with
  | [] => None
  | [i] => match nth_error t i with Some (TVValue v) => Some v | _ => None end
  | i :: p' => match nth_error t i with Some (TVTuple l) => leaf_at p' l | _ => None end
  end.

(** The tuple with its leaves erased. *)
Fixpoint shape_v {V} (t : tuple_value V) : tuple_value unit :=
  match t with
  | TVValue _ => TVValue Datatypes.tt
  | TVTuple l => TVTuple (map shape_v l)
  end.
Definition shape {V} (t : tuple V) : tuple unit := map shape_v t.

(** Level order: one flag per node ([true] for a tuple), level by level from the
    top; [depth] bounds the number of levels. *)
Definition is_tuple {V} (t : tuple_value V) : bool :=
  match t with TVTuple _ => true | _ => false end.
Definition children {V} (t : tuple_value V) : tuple V :=
  match t with TVTuple l => l | TVValue _ => [] end.
Fixpoint level_order {V} (depth : nat) (level : tuple V) : list bool :=
  match depth with
  | 0 => []
  | S d => map is_tuple level ++ level_order d (flat_map children level)
  end.
Fixpoint tv_depth {V} (t : tuple_value V) : nat :=
  match t with
  | TVValue _ => 1
  | TVTuple l => S (fold_right (fun x n => Nat.max (tv_depth x) n) 0 l)
  end.
Definition depth {V} (t : tuple V) : nat := fold_right (fun x n => Nat.max (tv_depth x) n) 0 t.
Definition kinds_in_level_order {V} (t : tuple V) : list bool := level_order (depth t) t.
