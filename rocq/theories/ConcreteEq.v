(** The comparison of tokens in Concrete.v decides their equality. *)
From Verif Require Import Base BaseFacts Token Concrete.
Open Scope list_scope.

Lemma delim_eqb_eq : forall a b, delim_eqb a b = true -> a = b.
Proof. intros [] []; cbn; congruence. Qed.
Lemma lit_eqb_eq : forall a b, lit_eqb a b = true -> a = b.
Proof.
  intros [] [] H; cbn in H; try discriminate;
    try (apply andb_prop in H; destruct H as [H1 H2]; apply str_eqb_eq in H1; apply str_eqb_eq in H2; congruence).
  apply str_eqb_eq in H. congruence.
Qed.
Lemma tt_eqb_eq : forall a b, tt_eqb a b = true -> a = b.
Proof.
  induction a as [x|c j|l|d ts IH] using tt_ind'; intros [y|c' j'|l'|d' ts'] H; cbn in H; try discriminate.
  - apply str_eqb_eq in H. congruence.
  - apply andb_prop in H. destruct H as [H1 H2]. apply N.eqb_eq in H1. apply Bool.eqb_prop in H2. congruence.
  - apply lit_eqb_eq in H. congruence.
  - apply andb_prop in H. destruct H as [H1 H2]. apply delim_eqb_eq in H1. subst d'. f_equal.
    revert ts' H2. induction IH as [|x r Hx Hr IHr]; intros [|y r'] H2; try discriminate; [reflexivity|].
    apply andb_prop in H2. destruct H2 as [H2 H3]. f_equal; [apply Hx, H2 | apply IHr, H3].
Qed.
