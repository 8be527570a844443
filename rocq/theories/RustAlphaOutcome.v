(** [renames] for the names exchanged in RustAlpha.v, with the instance of RustInstance.v. *)
From Coq Require Import String.
From Verif Require Import Base Token Values Parse Macro RustGrammar RustInstance SpecRename SpecHeaders SpecAlpha RustRename RustRenameLaws RustAlpha.
Open Scope list_scope.

Theorem exchanging_renames l : (forall p, In p l -> ~ In (fst p) grammar_words /\ ~ In (snd p) grammar_words) -> renames (exchanging l) rust rust_parsers rust_syntax.
Proof.
  intros H. pose proof (exchanging_one_to_one l) as R. apply rust_renames; [|reflexivity|exact (one_to_one_idents _ R)|intros a b E; exact E].
  apply Forall_forall. intros w Hw. apply fixed_spared; [exact R|]. apply exchanging_fixed. intros p Hp. destruct (H p Hp) as [H1 H2]. split; intros E; rewrite <- E in Hw; auto.
Qed.
