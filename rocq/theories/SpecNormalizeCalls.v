(** Vocabulary for C96: the values that [normalize2] works on as they are written. *)
From Verif Require Import Base Token Types Values.

(** Neither strings nor integers, of which [normalize2] takes what they say and not how they
    are written, and no raw tokens, which no expression stands for. *)
Definition taken_as_written (v : value) : Prop :=
  (forall digits written, v <> VLitInt digits written) /\ (forall text written, v <> VLitStr text written) /\ forall ts, v <> VRaw ts.

(** What a literal says: the text of a string, the digits of an integer. *)
Inductive says : value -> str -> Prop :=
| string_says text written : says (VLitStr text written) text
| integer_says digits written : says (VLitInt digits written) digits.
