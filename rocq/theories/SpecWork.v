(** Specifications for C52. *)
From Coq Require Import String.
From Verif Require Import Base Token Types Values Ast Env.
Open Scope list_scope.

Fixpoint size (e : expr) : N :=
  match e with
  | EValue _ _ => 1%N
  | ECall _ _ args _ => (1 + fold_right N.add 0 (map size args))%N
  end.

(** Work if every call tries [overloads] overloads completely. *)
Fixpoint work_bound (overloads : N) (e : expr) : N :=
  match e with
  | EValue _ _ => 1%N
  | ECall _ _ args _ => (1 + overloads * (1 + fold_right N.add 0 (map (work_bound overloads) args)))%N
  end.

(** [concat(concat(concat(x, x), x), x)] *)
Fixpoint chain (n : nat) (id : N) : expr :=
  match n with
  | O => EValue id (VIdent (txt "x"))
  | S n => ECall id (txt "concat") [chain n (id + 2)%N; EValue (id + 1) (VIdent (txt "x"))] None
  end.
