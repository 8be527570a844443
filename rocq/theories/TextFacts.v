(** Witnesses for the text properties that do not hold. *)
From Coq Require Import String.
From Verif Require Import Base Token Types Values Normalize FormatString SpecFormat Concrete.

Lemma normalize_not_idempotent :
  exists s, normalize is_alnum is_digit (normalize is_alnum is_digit s) <> normalize is_alnum is_digit s
    /\ last (normalize is_alnum is_digit s) 0%N = underscore /\ normalize is_alnum is_digit s <> [underscore].
Proof.
  exists (txt "a__"). vm_compute. repeat split; discriminate.
Qed.

(** Two aliases for the witnesses. *)
Definition two (x : str) : option value :=
  if str_eqb x (txt "a") then Some (VIdent (txt "foo"))
  else if str_eqb x (txt "b") then Some (VIdent (txt "bar")) else None.

(** Four percent signs give three, not two; adjacent placeholders lose the second one. *)
Lemma percent_escape_wrong : exists lookup n a b v w,
  format_string ascii lookup (repeat percent (2 * n)) <> repeat percent n /\
  lookup a = Some v /\ lookup b = Some w /\
  format_string ascii lookup ([percent] ++ a ++ [percent] ++ [percent] ++ b ++ [percent]) <> shown ascii v ++ shown ascii w /\
  format_string ascii lookup (txt "%%%%") = txt "%%%" /\ format_string ascii lookup (txt "%a%%b%") = txt "foo%b%".
Proof.
  exists two, 2, (txt "a"), (txt "b"), (VIdent (txt "foo")), (VIdent (txt "bar")).
  repeat split; vm_compute; solve [reflexivity | discriminate].
Qed.
