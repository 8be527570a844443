(** The Rust instance reads no signature whose [fn] is not followed by an identifier. *)
From Coq Require Import String.
From Verif Require Import Base BaseFacts Token Values Item Interpreter Parse Concrete RustLexer RustGrammar RustInstance SpecBrackets SpecStrings.
Open Scope list_scope.

Definition unnamed (ts : list tt) : Prop := exists q t r, Forall qualifier q /\ (forall x, t <> TIdent x) /\ ts = q ++ TIdent (txt "fn") :: t :: r.

Definition keeps (f : parser) : Prop := forall ts r, unnamed ts -> f ts = Some r -> unnamed r.

Lemma unnamed_tail t ts : qualifier t -> unnamed (t :: ts) -> unnamed ts.
Proof.
  intros Ht (q & l & r & Hq & Hl & E). destruct q as [|t' q].
  - injection E as -> ->. exfalso. destruct Ht as [(w & Hw & H)|(l' & H)]; [|discriminate]. injection H as <-.
    unfold fn_qualifiers in Hw. vm_compute in Hw. repeat destruct Hw as [Hw|Hw]; try discriminate. exact Hw.
  - injection E as -> ->. inversion Hq; subst. exists q, l, r. auto.
Qed.
Lemma keeps_opt f : keeps f -> keeps (opt f).
Proof. intros H ts r Hu. unfold opt, or_. destruct (f ts) eqn:E; intros [= <-]; [exact (H _ _ Hu E)|exact Hu]. Qed.
Lemma keeps_then f g : keeps f -> keeps g -> keeps (f ;;; g).
Proof. intros H K ts r Hu. unfold then_. destruct (f ts) eqn:E; [|discriminate]. exact (K _ _ (H _ _ Hu E)). Qed.
Lemma keeps_word x : In (txt x) fn_qualifiers -> keeps (word x).
Proof.
  intros Hx ts r Hu. unfold word. destruct ts as [|[y| | |] ts]; try discriminate. destruct (str_eqb (txt x) y) eqn:E; [|discriminate].
  intros [= <-]. apply str_eqb_eq in E as <-. refine (unnamed_tail _ _ _ Hu). left. eauto.
Qed.
Lemma keeps_string : keeps string_lit.
Proof.
  intros ts r Hu. unfold string_lit. destruct ts as [|[ | |l|] ts]; try discriminate. destruct l; try discriminate. intros [= <-].
  refine (unnamed_tail _ _ _ Hu). right. eauto.
Qed.
Lemma fn_bracket ts r : unnamed ts -> word "fn" ts = Some r -> ident r = None.
Proof.
  intros (q & l & r' & Hq & Hl & ->) H. destruct q as [|t q].
  - vm_compute in H. injection H as <-. unfold ident. destruct l; try reflexivity. destruct (Hl x). reflexivity.
  - exfalso. inversion Hq as [|? ? Ht _]; subst. destruct Ht as [(w & Hw & ->)|(l' & ->)]; [|discriminate H].
    unfold fn_qualifiers in Hw. cbn [map In] in Hw. repeat destruct Hw as [<-|Hw]; try (vm_compute in H; discriminate H). exact Hw.
Qed.
Lemma unnamed_refused s : unnamed s -> reparse rust_syntax KSig s = None.
Proof.
  intros Hu. change (whole (nt_ NSig) s = None). unfold whole, all. enough (E : nt_ NSig s = None) by (rewrite E; reflexivity). unfold nt_.
  assert (G : forall fuel, go block_ok (S fuel) NSig s = None); [|exact (G _)]. intros fuel. cbn [go].
  assert (W : forall x, In (txt x) fn_qualifiers -> keeps (opt (word x))) by (intros x Hx; apply keeps_opt, keeps_word, Hx).
  unfold then_ at 1. destruct (opt (word "const") s) as [s1|] eqn:E1; [|reflexivity]. apply W in E1; [|left; reflexivity|exact Hu].
  unfold then_ at 1. destruct (opt (word "async") s1) as [s2|] eqn:E2; [|reflexivity]. apply W in E2; [|right; left; reflexivity|exact E1].
  unfold then_ at 1. destruct (opt (word "unsafe") s2) as [s3|] eqn:E3; [|reflexivity]. apply W in E3; [|right; right; left; reflexivity|exact E2].
  unfold then_ at 1. destruct (opt (word "extern" ;;; opt string_lit) s3) as [s4|] eqn:E4; [|reflexivity].
  apply (keeps_opt _ (keeps_then _ _ (keeps_word "extern" (or_intror (or_intror (or_intror (or_introl eq_refl))))) (keeps_opt _ keeps_string))) in E4; [|exact E3].
  unfold then_ at 1. destruct (word "fn" s4) as [s5|] eqn:E5; [|reflexivity].
  unfold then_ at 1. rewrite (fn_bracket _ _ E4 E5). reflexivity.
Qed.
Lemma rust_fn_is_named : fn_is_named rust_syntax.
Proof. intros q ts r Hq. apply unnamed_refused. exists q, (TGroup Bracket ts), r. split; [exact Hq|]. split; [discriminate|reflexivity]. Qed.
Lemma rust_fn_takes_name : fn_takes_name rust_syntax.
Proof. intros q l r Hq. apply unnamed_refused. exists q, (TLit l), r. split; [exact Hq|]. split; [discriminate|reflexivity]. Qed.
Lemma rust_reserves_fn : reserves_fn rust_parsers.
Proof. intros x Hx. unfold fn_qualifiers in Hx. cbn [map In] in Hx. repeat destruct Hx as [<-|Hx]; try (vm_compute; reflexivity). destruct Hx. Qed.
