(** Specification: the Cartesian product as nested [for] loops. *)
From Verif Require Import Base.

(** [for x1 in s1 { for x2 in s2 { ... yield [x1, x2, ...] } }] *)
Fixpoint nested_loops {A} (srcs : list (list A)) : list (list A) :=
  match srcs with
  | [] => [[]]
  | sr :: rest => flat_map (fun x => map (cons x) (nested_loops rest)) sr
  end.

(** No loops at all produce no combination. *)
Definition all_combinations {A} (srcs : list (list A)) : list (list A) :=
  match srcs with [] => [] | _ => nested_loops srcs end.
