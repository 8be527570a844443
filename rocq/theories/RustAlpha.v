(** Uses with other names for their aliases, with the instance of RustInstance.v. *)
From Coq Require Import String.
From Verif Require Import Base BaseFacts Token Values Parse Macro RustGrammar RustInstance SpecRename SpecHeaders SpecAlpha RustRename HeaderProofs HeaderUseProofs RustHeaders.
Open Scope list_scope.

Lemma exchange_back p x : exchange p (exchange p x) = x.
Proof.
  destruct p as [a b]. unfold exchange. cbn [fst snd]. destruct (str_eqb x a) eqn:E1.
  - apply str_eqb_eq in E1 as ->. destruct (str_eqb b a) eqn:E2; [apply str_eqb_eq in E2 as ->; reflexivity|]. rewrite str_eqb_refl. reflexivity.
  - destruct (str_eqb x b) eqn:E2; [apply str_eqb_eq in E2 as ->; rewrite str_eqb_refl; reflexivity|]. rewrite E1, E2. reflexivity.
Qed.
Lemma exchanging_one_to_one l : one_to_one (exchanging l).
Proof.
  constructor; [|reflexivity]. cbn [exchanging on_idents]. induction l as [|p l IH]; intros x y H; [exact H|]. cbn [fold_right] in H. apply IH. apply (f_equal (exchange p)) in H. rewrite !exchange_back in H. exact H.
Qed.
Lemma exchanging_fixed l w : (forall p, In p l -> fst p <> w /\ snd p <> w) -> exchanging l w = w.
Proof.
  cbn [exchanging on_idents]. induction l as [|p l IH]; intros H; [reflexivity|]. cbn [fold_right]. rewrite IH by (intros q Hq; apply H; right; exact Hq).
  destruct (H p (or_introl eq_refl)) as [H1 H2]. unfold exchange. destruct (str_eqb w (fst p)) eqn:E; [apply str_eqb_eq in E; congruence|]. destruct (str_eqb w (snd p)) eqn:E'; [apply str_eqb_eq in E'; congruence|reflexivity].
Qed.
Lemma fixed_spared r w : one_to_one r -> r w = w -> spared r w.
Proof. intros R H x. split; [intros E; apply (one_to_one_idents _ R); congruence|intros ->; exact H]. Qed.

Theorem rust_names_alike r : one_to_one r -> (forall w, In w grammar_words -> r w = w) -> (forall x, known rust x = true -> r x = x) -> names_alike rust rust_parsers r.
Proof.
  intros R W F. assert (W' : Forall (spared r) grammar_words) by (apply Forall_forall; intros w Hw; apply fixed_spared; [exact R|exact (W w Hw)]).
  constructor; [exact R| | |apply rust_alike; [exact W'|exact (one_to_one_literals _ R)]|apply rust_block_rename; [exact W'|exact (one_to_one_literals _ R)]].
  - apply Forall_forall. intros w Hw. apply (proj1 (Forall_forall _ _) W').
    assert (E : forallb is_grammar_word SpecRename.printed_words = true) by (vm_compute; reflexivity).
    pose proof (proj1 (forallb_forall _ _) E w Hw) as H. apply existsb_exists in H as (w' & Hi & E'). apply str_eqb_eq in E'. subst w'. exact Hi.
  - intros x. destruct (known rust x) eqn:E; [rewrite (F x E); exact E|]. destruct (known rust (r x)) eqn:E'; [|reflexivity]. apply F in E' as E''. apply (one_to_one_idents _ R) in E''. congruence.
Qed.
Theorem rust_exchanging l : (forall p, In p l -> ~ In (fst p) grammar_words /\ ~ In (snd p) grammar_words /\ known rust (fst p) = false /\ known rust (snd p) = false) ->
  names_alike rust rust_parsers (exchanging l).
Proof.
  intros H. apply rust_names_alike; [apply exchanging_one_to_one| |].
  - intros w Hw. apply exchanging_fixed. intros p Hp. destruct (H p Hp) as (H1 & H2 & _). split; intros E; rewrite <- E in Hw; auto.
  - intros w Hw. apply exchanging_fixed. intros p Hp. destruct (H p Hp) as (_ & _ & H1 & H2). split; congruence.
Qed.
