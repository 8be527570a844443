(** Specifications for C51. *)
From Verif Require Import Base Token Types Values Ast Env Costs.

(** Arithmetic that is right as long as the result fits. *)
Definition right_below (bound : N) (arith : N -> N -> N -> res N) : Prop :=
  forall cost c mult, (cost + c * mult < bound)%N -> arith cost c mult = Ok (cost + c * mult)%N.

(** A bound on costs that can be read off the source. *)
Fixpoint weight (e : expr) : N :=
  match e with
  | EValue _ _ => 5%N
  | ECall _ _ args _ => (5 + 2 * fold_right N.add 0 (map weight args))%N
  end.
