(** Raw identifiers: an identifier spelled with [r#] has these two characters in its text
    (proc_macro2's [Display]); [Ident::new] refuses a text with ["#"], and conversions to
    capitals and small letters keep the character. *)
From Coq Require Import String.
From Verif Require Import Base Token Values.
Open Scope list_scope.

Definition number_sign : chr := 35%N.
Definition raw_name (x : str) : Prop := In number_sign x.
Definition refuses_raw_names (O : oracles) : Prop :=
  (forall x, raw_name x -> ident_ok O x = false) /\
  (forall x, raw_name x -> raw_name (upper O x)) /\ (forall x, raw_name x -> raw_name (lower O x)).
