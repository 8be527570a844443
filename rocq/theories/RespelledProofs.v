(** Items without aliases: when they come out, and as what. *)
From Coq Require Import String.
From Verif Require Import Base BaseFacts Token Types Values FormatString FormatProofs StreamWalker SubstituteIdents SpecSubst WalkerProofs SubstFacts
  Item AliasSubstitution SpecItem SpecRespelled VisitorProofs VisitorTotal.
Open Scope list_scope.

(** ** Inner attributes are not accepted *)
Section Outer.
Context (O : oracles) (lookup : str -> option value) (reparse : kind -> list tt -> option (list tt)).

Lemma parse_outer_outer l : forall l', parse_outer reparse (attrs_tokens l) = Some l' -> outer_only l.
Proof.
  induction l as [|a l IH]; intros l' H; [constructor|].
  unfold attrs_tokens in H. cbn [flat_map] in H. unfold attr_tokens at 1 in H. destruct (is_inner a) eqn:Ei; [discriminate|].
  cbn [app parse_outer sym] in H. change (hd 0%N (txt "#")) with 35%N in H. cbn [N.eqb Pos.eqb] in H.
  destruct (reparse KMeta (meta a)) as [m|] eqn:Em; [|discriminate]. fold (attrs_tokens l) in H.
  destruct (parse_outer reparse (attrs_tokens l)) as [r|] eqn:Er; [|discriminate]. constructor; [exact Ei|]. eapply IH. reflexivity.
Qed.
Lemma attrs_are_outer l l' : visit_attrs O lookup reparse l = Ok l' -> outer_only l.
Proof.
  intros H. apply substitutes in H. rewrite sub_attrs in H. apply parse_outer_outer in H. unfold outer_only in *. rewrite Forall_map in H. exact H.
Qed.
Lemma field_outer f f' : visit_field O lookup reparse f = Ok f' -> outer_only (f_attrs f).
Proof. unfold visit_field. intros H. run H. eapply attrs_are_outer. exact E. Qed.
Lemma field_list_outer l l' : mapM (visit_field O lookup reparse) l = Ok l' -> Forall (fun x => outer_only (f_attrs x)) l.
Proof. intros H. apply mapM_ok in H. induction H as [|x y l l' H _ IH]; constructor; [eapply field_outer; exact H|exact IH]. Qed.
Lemma fields_outer f f' : visit_fields O lookup reparse f = Ok f' -> Forall (fun x => outer_only (f_attrs x)) (fields_list f).
Proof. destruct f as [l t|l t|]; cbn [visit_fields fields_list]; intros H; [run H; eapply field_list_outer; exact E ..|constructor]. Qed.
Lemma variant_outer v v' : visit_variant O lookup reparse v = Ok v' -> outer_only (v_attrs v) /\ Forall (fun x => outer_only (f_attrs x)) (fields_list (v_fields v)).
Proof. unfold visit_variant. intros H. run H. split; [eapply attrs_are_outer; exact E|eapply fields_outer; exact E1]. Qed.

Lemma children_outer {A} (visit : A -> res A) (P : A -> Prop) l : Forall (fun x => forall y, visit x = Ok y -> P x) l -> forall l', mapM visit l = Ok l' -> all_of P l.
Proof.
  induction 1 as [|x l Hx _ IH]; intros l' H; [exact I|]. cbn [mapM] in H. run H. split; [eapply Hx; reflexivity|]. eapply IH. reflexivity.
Qed.

Definition PI i := forall i', visit_item O lookup reparse i = Ok i' -> item_outer i.
Definition PS s := forall s', visit_stmt O lookup reparse s = Ok s' -> stmt_outer s.
Definition PT i := forall i', visit_trait_item O lookup reparse i = Ok i' -> trait_item_outer i.
Definition PM i := forall i', visit_impl_item O lookup reparse i = Ok i' -> impl_item_outer i.

Lemma item_is_outer i : PI i.
Proof.
  apply (item_ind' PI PS PT PM); unfold PI, PS, PT, PM; clear i.
  - intros a v s b IH i' H. rewrite visit_fn in H. run H. split; [eapply attrs_are_outer; eauto|eapply children_outer; eauto].
  - intros a v x g f i' H. cbn [visit_item] in H. run H. split; [eapply attrs_are_outer; eauto|eapply fields_outer; eauto].
  - intros a v x g l t i' H. cbn [visit_item] in H. run H. split; [eapply attrs_are_outer; eauto|].
    apply mapM_ok in E3. clear -E3. induction E3 as [|y z l l' H _ IH]; constructor; [eapply variant_outer; exact H|exact IH].
  - intros a v x g l t i' H. cbn [visit_item] in H. run H. split; [eapply attrs_are_outer; eauto|eapply field_list_outer; eauto].
  - intros a v u au x g s t l IH i' H. rewrite visit_trait in H. run H. split; [eapply attrs_are_outer; eauto|eapply children_outer; eauto].
  - intros a d u g tr ty l IH i' H. rewrite visit_impl in H. run H. split; [eapply attrs_are_outer; eauto|eapply children_outer; eauto].
  - intros a v u x l IH i' H. rewrite visit_mod in H. run H. run E2. split; [eapply attrs_are_outer; eauto|eapply children_outer; eauto].
  - intros a v u x i' H. cbn [visit_item] in H. run H. eapply attrs_are_outer; eauto.
  - intros a u abi l i' H. cbn [visit_item] in H. run H. eapply attrs_are_outer; eauto.
  - intros ts i' _. exact I.
  - intros i IH s' H. destruct i; cbn [visit_stmt] in H; cbn [stmt_outer]; try exact I; run H; eapply IH; eauto.
  - intros ts s' _. exact I.
  - intros a s b IH i' H. rewrite visit_trait_fn in H. run H. run E1. split; [eapply attrs_are_outer; eauto|eapply children_outer; eauto].
  - intros a s i' H. cbn [visit_trait_item] in H. run H. eapply attrs_are_outer; eauto.
  - intros k ts i' _. exact I.
  - intros a v d s b IH i' H. rewrite visit_impl_fn in H. run H. split; [eapply attrs_are_outer; eauto|eapply children_outer; eauto].
  - intros k ts i' _. exact I.
Qed.
Lemma block_is_outer l l' : visit_block O lookup reparse l = Ok l' -> all_of stmt_outer l.
Proof.
  intros H. eapply children_outer; [|exact H]. apply Forall_forall. intros [i|ts] _ s' Hs; [|exact I].
  destruct i; cbn [visit_stmt] in Hs; cbn [stmt_outer]; try exact I; run Hs; eapply item_is_outer; eauto.
Qed.
End Outer.

(** ** Items whose nodes parse come out *)
Section Comes.
Context (O : oracles) (lookup : str -> option value) (reparse : kind -> list tt -> option (list tt)).
Context (I : indifferent O reparse).
Definition free (ts : list tt) : Prop := forall x, In (TIdent x) (leaves ts) -> lookup x = None.

Lemma free_app a b : free (a ++ b) <-> free a /\ free b.
Proof.
  unfold free. rewrite leaves_app. split; [intros H; split; intros x Hx; apply H, in_or_app; auto|intros [H1 H2] x Hx; apply in_app_or in Hx as [Hx|Hx]; auto].
Qed.
Lemma free_group d g : free [TGroup d g] <-> free g.
Proof. unfold free, leaves. cbn [flat_map leaves1]. rewrite app_nil_r. reflexivity. Qed.
Lemma free_cons t r : free (t :: r) <-> free [t] /\ free r.
Proof. apply (free_app [t] r). Qed.
Lemma free_concat l : free (List.concat l) <-> Forall free l.
Proof.
  induction l as [|x l IH]; cbn [List.concat]; [split; [constructor|intros _ y []]|]. rewrite free_app, IH. split; [intros []; constructor; auto|intros H; inversion H; auto].
Qed.
Lemma free_punctuated {A} (print : A -> list tt) s t l : free (punctuated print (sym s) t l) -> Forall (fun x => free (print x)) l.
Proof.
  induction l as [|x l IH]; [constructor|]. destruct l as [|y l].
  - cbn [punctuated]. rewrite free_app. intros []. constructor; auto.
  - intros H. change (free (print x ++ sym s :: punctuated print (sym s) t (y :: l))) in H. rewrite free_app, free_cons in H. constructor; tauto.
Qed.

(** Without aliases only strings are replaced. *)
Lemma stages_unnamed ts x s : free ts -> In (Some x, s) (substitution_stages O lookup ts) -> False.
Proof.
  intros Hf H. apply (in_map fst) in H. unfold substitution_stages in H. rewrite stages_names in H. cbn [fst] in H.
  apply in_map_iff in H as (t & Ht & Hin). apply filter_In in Hin as [Hin Ho]. destruct t as [y| | |]; cbn in Ht; try discriminate. injection Ht as ->.
  cbn [occurs] in Ho. unfold tokens_of in Ho. rewrite (Hf _ Hin) in Ho. discriminate.
Qed.
Lemma comes {N} (parse : list tt -> option N) ts : ignores_strings parse -> free ts -> parse ts <> None -> exists n, substitute_idents O lookup parse ts = Ok n.
Proof.
  intros Hi Hf Hp. destruct (outcomes O lookup parse (strings_only _ _ I) Hi ts Hp) as [(n & H & _)|(b & x & s & a & He & _)]; [eauto|exfalso].
  apply (stages_unnamed ts x s Hf). rewrite He. apply in_or_app. right. left. reflexivity.
Qed.
Lemma node_comes k ts : node_ok reparse k ts -> free ts -> exists n, visit_node O lookup reparse k ts = Ok n.
Proof. intros H Hf. apply comes; [apply (indifferent_node _ _ I)|exact Hf|]. unfold node_ok in H. congruence. Qed.
Lemma name_comes x : name_ok O x -> free [TIdent x] -> exists n, visit_name O lookup x = Ok n.
Proof. intros H Hf. apply comes; [apply (indifferent_ident _ _ I)|exact Hf|]. unfold name_ok in H. congruence. Qed.

Lemma ignores_outer : ignores_strings (parse_outer reparse).
Proof.
  assert (H : forall n ts ts', List.length ts <= n -> Forall2 same_but_strings ts ts' -> parse_outer reparse ts = None -> parse_outer reparse ts' = None).
  { induction n as [|n IH]; intros ts ts' Hn Hs Hp.
    - destruct ts; [discriminate Hp|cbn in Hn; lia].
    - destruct Hs as [|t t' r r' Ht Hr]; [discriminate Hp|]. destruct Ht as [x|c j|l|v p v' p'|d g g' Hg]; try reflexivity.
      destruct Hr as [|u u' q q' Hu Hq]; [reflexivity|]. destruct Hu as [x|c2 j2|l|v p v' p'|d g g' Hg]; try reflexivity.
      destruct d; try reflexivity. cbn [parse_outer] in Hp |- *. destruct (N.eqb c 35); [|reflexivity].
      destruct (reparse KMeta g) as [m|] eqn:Em.
      + destruct (parse_outer reparse q) as [ql|] eqn:Eq; [discriminate|].
        rewrite (IH q q'); [destruct (reparse KMeta g'); reflexivity|cbn in Hn; lia|exact Hq|exact Eq].
      + rewrite (indifferent_node _ _ I KMeta g g' Hg Em). reflexivity. }
  intros ts ts'. apply (H (List.length ts)). lia.
Qed.
Lemma attrs_come l : attrs_ok reparse l -> free (attrs_tokens l) -> exists l', visit_attrs O lookup reparse l = Ok l'.
Proof. intros H Hf. apply comes; [apply ignores_outer|exact Hf|]. rewrite attrs_parse by exact H. discriminate. Qed.

Lemma list_comes {A} (f : A -> res A) l : Forall (fun x => exists y, f x = Ok y) l -> exists l', mapM f l = Ok l'.
Proof. induction 1 as [|x l [y Hy] _ [r Hr]]; [eexists; reflexivity|]. cbn [mapM]. rewrite Hy. cbn [bind]. rewrite Hr. eexists. reflexivity. Qed.

Ltac step H := let y := fresh "y" in let Hy := fresh "Hy" in destruct H as [y Hy]; rewrite Hy; cbn [bind]; clear Hy.

Lemma field_comes f : field_ok O reparse f -> free (field_tokens f) -> exists f', visit_field O lookup reparse f = Ok f'.
Proof.
  intros (Ha & Hv & Hx & Ht). unfold field_tokens. rewrite !free_app. intros (U1 & U2 & U3 & U4). unfold visit_field.
  step (attrs_come _ Ha U1). step (node_comes _ _ Hv U2).
  destruct f as [a v [x|] t]; cbn [f_attrs f_vis f_ident f_ty visit_opt] in *.
  - rewrite free_cons in U3. step (name_comes x (Hx _ eq_refl) (proj1 U3)). step (node_comes _ _ Ht U4). eexists. reflexivity.
  - cbn [bind]. step (node_comes _ _ Ht U4). eexists. reflexivity.
Qed.
Lemma field_list_comes l s t : Forall (field_ok O reparse) l -> free (punctuated field_tokens (sym s) t l) -> exists l', mapM (visit_field O lookup reparse) l = Ok l'.
Proof. intros Hl Hu. apply list_comes. eapply Forall_both; [|exact Hl|eapply free_punctuated; exact Hu]. apply field_comes. Qed.
Lemma fields_come f : fields_ok O reparse f -> free (fields_tokens f) -> exists f', visit_fields O lookup reparse f = Ok f'.
Proof.
  destruct f as [l t|l t|]; cbn [fields_ok fields_tokens visit_fields]; [| |eexists; reflexivity]; rewrite free_group; intros Hl Hu;
    step (field_list_comes _ _ _ Hl Hu); eexists; reflexivity.
Qed.
Lemma variant_comes v : variant_ok O reparse v -> free (variant_tokens v) -> exists v', visit_variant O lookup reparse v = Ok v'.
Proof.
  intros (Ha & Hx & Hf & Hd). unfold variant_tokens. rewrite free_app, free_cons, free_app. intros (U1 & U2 & U3 & U4). unfold visit_variant.
  step (attrs_come _ Ha U1). step (name_comes _ Hx U2). step (fields_come _ Hf U3).
  destruct v as [a x f [e|]]; cbn [v_attrs v_ident v_fields v_disc visit_opt] in *; [|eexists; reflexivity].
  rewrite free_cons in U4. step (node_comes _ _ (Hd _ eq_refl) (proj2 U4)). eexists. reflexivity.
Qed.
Lemma generics_come g : node_ok reparse KGenerics (g_params g) -> free (g_params g) -> exists g', visit_generics O lookup reparse g = Ok g'.
Proof. intros H Hu. unfold visit_generics. step (node_comes _ _ H Hu). eexists. reflexivity. Qed.
Lemma other_comes ts : faithful O reparse -> stmt_tokens_ok reparse ts -> free ts -> exists ts', visit_other_stmt O lookup reparse ts = Ok ts'.
Proof.
  unfold stmt_tokens_ok. intros F H Hu. unfold visit_other_stmt. pose proof H as H'. unfold node_ok in H'. rewrite H'.
  assert (Hg : free [TGroup Brace ts]) by (apply free_group; exact Hu).
  destruct (node_comes KBlock _ H Hg) as [n Hn]. rewrite Hn. cbn [bind]. apply (node_emit O lookup reparse F) in Hn as ->.
  rewrite sub_group. cbn [app]. rewrite sub_nil. eexists. reflexivity.
Qed.

Context (F : faithful O reparse).
Definition C {A} (ok : A -> Prop) (visit : A -> res A) (print : A -> list tt) (drop : A -> A) (x : A) : Prop :=
  ok x -> free (print (drop x)) -> exists y, visit x = Ok y.
Lemma children_come {A} ok visit print drop (l : list A) :
  Forall (C ok visit print drop) l -> fold_right and True (map ok l) -> free (flat_map print (map drop l)) -> exists l', mapM visit l = Ok l'.
Proof.
  induction 1 as [|x l Hx _ IH]; intros Hok Hu; [eexists; reflexivity|]. cbn [map fold_right flat_map] in *. rewrite free_app in Hu.
  destruct Hok as [Ho1 Ho2], Hu as [Hu1 Hu2]. cbn [mapM]. step (Hx Ho1 Hu1). step (IH Ho2 Hu2). eexists. reflexivity.
Qed.

Notation TI := (C (item_ok O reparse) (visit_item O lookup reparse) item_tokens drop_where).
Notation TS := (C (stmt_ok O reparse) (visit_stmt O lookup reparse) stmt_tokens drop_where_stmt).
Notation TT := (C (trait_item_ok O reparse) (visit_trait_item O lookup reparse) trait_item_tokens drop_where_trait_item).
Notation TM := (C (impl_item_ok O reparse) (visit_impl_item O lookup reparse) impl_item_tokens drop_where_impl_item).

Ltac attrs_same := match goal with H : attrs_ok reparse ?a |- _ => let H1 := fresh in let H2 := fresh in destruct (attrs_outer reparse a H) as [H1 H2]; rewrite ?H1, ?H2 in *; clear H1 H2 end.
Ltac done := eexists; reflexivity.

Lemma item_comes i : TI i.
Proof.
  apply (item_ind' TI TS TT TM); unfold C; clear i.
  - (* fn *) intros a v s b IH (Ha & Hv & Hs & Hb) Hu. cbn [drop_where item_tokens] in *. attrs_same. rewrite !free_app, free_group, free_app in Hu.
    destruct Hu as (U1 & U2 & U3 & U4 & U5). rewrite visit_fn. step (attrs_come _ Ha U1). step (node_comes _ _ Hv U2). step (node_comes _ _ Hs U3).
    step (children_come _ _ _ _ _ IH Hb U5). done.
  - (* struct *) intros a v x g f (Ha & Hv & Hx & Hg & Hf) Hu. cbn [drop_where item_tokens] in *. attrs_same. rewrite !free_app, free_cons in Hu.
    destruct Hu as (U1 & U2 & (U3 & U4) & U5 & U6).
    assert (U7 : free (fields_tokens f)) by (destruct f; cbn [g_where no_where_generics app] in U6; rewrite ?free_app in U6; try tauto; intros ? []).
    cbn [visit_item]. step (attrs_come _ Ha U1). step (node_comes _ _ Hv U2). step (name_comes _ Hx U4). step (generics_come _ Hg U5). step (fields_come _ Hf U7). done.
  - (* enum *) intros a v x g l t (Ha & Hv & Hx & Hg & Hl) Hu. cbn [drop_where item_tokens] in *. attrs_same. rewrite !free_app, free_cons, free_group in Hu.
    destruct Hu as (U1 & U2 & (U3 & U4) & U5 & _ & U6). cbn [visit_item].
    step (attrs_come _ Ha U1). step (node_comes _ _ Hv U2). step (name_comes _ Hx U4). step (generics_come _ Hg U5).
    assert (Hm : exists l', mapM (visit_variant O lookup reparse) l = Ok l').
    { apply list_comes. eapply Forall_both; [|exact Hl|eapply free_punctuated; exact U6]. apply variant_comes. }
    step Hm. done.
  - (* union *) intros a v x g l t (Ha & Hv & Hx & Hg & Hl) Hu. cbn [drop_where item_tokens] in *. attrs_same. rewrite !free_app, free_cons, free_group in Hu.
    destruct Hu as (U1 & U2 & (U3 & U4) & U5 & _ & U6). cbn [visit_item].
    step (attrs_come _ Ha U1). step (node_comes _ _ Hv U2). step (name_comes _ Hx U4). step (generics_come _ Hg U5). step (field_list_comes _ _ _ Hl U6). done.
  - (* trait *) intros a v u au x g s t l IH (Ha & Hv & Hx & Hg & Hs & Hl) Hu. cbn [drop_where item_tokens] in *. attrs_same. rewrite !free_app, free_cons, free_group, free_app in Hu.
    destruct Hu as (U1 & U2 & _ & _ & (U3 & U4) & U5 & U6 & _ & _ & U7). rewrite visit_trait.
    step (attrs_come _ Ha U1). step (node_comes _ _ Hv U2). step (name_comes _ Hx U4). step (generics_come _ Hg U5).
    assert (Hm : exists s', mapM (visit_node O lookup reparse KBound) s = Ok s').
    { apply list_comes. apply (Forall_both (node_ok reparse KBound) free); [apply node_comes|exact Hs|]. destruct s as [|y' s]; [constructor|].
      rewrite free_cons in U6. apply (free_punctuated (fun b => b) "+" t). tauto. }
    step Hm. step (children_come _ _ _ _ _ IH Hl U7). done.
  - (* impl *) intros a d u g tr ty l IH (Ha & Hg & Htr & Hty & Hl) Hu. cbn [drop_where item_tokens] in *. attrs_same. rewrite !free_app, free_group, free_app in Hu.
    destruct Hu as (U1 & _ & _ & _ & U2 & U3 & U4 & _ & _ & U5). rewrite visit_impl. step (attrs_come _ Ha U1). step (generics_come _ Hg U2).
    assert (Ht : exists tr', visit_opt (fun bp : bool * list tt => let! p := visit_node O lookup reparse KPath (snd bp) in Ok (fst bp, p)) tr = Ok tr').
    { destruct tr as [[bang p]|]; [|done]. rewrite !free_app in U3. cbn [visit_opt fst snd]. step (node_comes KPath p (Htr _ _ eq_refl) (proj1 (proj2 U3))). done. }
    step Ht. step (node_comes _ _ Hty U4). step (children_come _ _ _ _ _ IH Hl U5). done.
  - (* mod *) intros a v u x l IH (Ha & Hv & Hx & Hl) Hu. cbn [drop_where item_tokens] in *. attrs_same. rewrite !free_app, free_cons, free_group, free_app in Hu.
    destruct Hu as (U1 & U2 & _ & (_ & U3) & _ & U4). rewrite visit_mod. step (attrs_come _ Ha U1). step (node_comes _ _ Hv U2). step (name_comes _ Hx U3).
    step (children_come _ _ _ _ _ IH Hl U4). done.
  - intros a v u x (Ha & Hv & Hx) Hu. cbn [drop_where item_tokens] in *. attrs_same. rewrite !free_app, free_cons in Hu.
    destruct Hu as (U1 & U2 & _ & (_ & U3) & _). cbn [visit_item]. step (attrs_come _ Ha U1). step (node_comes _ _ Hv U2). step (name_comes _ Hx U3). done.
  - (* foreign *) intros a u abi l (Ha & Habi & Hl) Hu. cbn [drop_where item_tokens] in *. attrs_same. rewrite !free_app, free_group, free_app, free_concat in Hu.
    destruct Hu as (U1 & _ & _ & U2 & _ & U3). cbn [visit_item]. step (attrs_come _ Ha U1).
    assert (Hb : exists abi', visit_opt (visit_abi O lookup) abi = Ok abi').
    { destruct abi as [[v p]|]; [|done]. cbn [visit_opt]. unfold visit_abi. cbn [fst snd].
      assert (Hp : parse_lit_str O [TLit (LStr v p)] <> None) by (rewrite (Habi _ _ eq_refl); discriminate).
      step (comes (parse_lit_str O) _ (indifferent_str _ _ I) U2 Hp). done. }
    step Hb.
    assert (Hm : exists l', mapM (visit_node O lookup reparse KForeignItem) l = Ok l').
    { apply list_comes. eapply Forall_both; [|exact Hl|exact U3]. apply node_comes. }
    step Hm. done.
  - intros ts Ho Hu. cbn [drop_where item_tokens] in *. cbn [visit_item]. cbn [item_ok] in Ho. step (node_comes _ _ Ho Hu). done.
  - intros i IH Ho Hu. cbn [drop_where_stmt stmt_tokens] in *.
    assert (Hd : (exists ts, i = IOther ts) \/ (stmt_ok O reparse (SItem i) = item_ok O reparse i /\ visit_stmt O lookup reparse (SItem i) = let! i' := visit_item O lookup reparse i in Ok (SItem i')))
      by (destruct i; [right; split; reflexivity ..|left; eauto]).
    destruct Hd as [[ts ->]|[H1 H2]].
    + cbn [visit_stmt]. cbn [stmt_ok] in Ho. cbn [drop_where item_tokens] in Hu. step (other_comes _ F Ho Hu). done.
    + rewrite H1 in Ho. rewrite H2. step (IH Ho Hu). done.
  - intros ts Ho Hu. cbn [visit_stmt]. cbn [stmt_ok drop_where_stmt stmt_tokens] in *. step (other_comes _ F Ho Hu). done.
  - intros a s b IH (Ha & Hs & Hb) Hu. cbn [drop_where_trait_item trait_item_tokens] in *. attrs_same. rewrite !free_app, free_group, free_app in Hu.
    destruct Hu as (U1 & U3 & U4 & U5). rewrite visit_trait_fn. step (attrs_come _ Ha U1). step (node_comes _ _ Hs U3). step (children_come _ _ _ _ _ IH Hb U5). done.
  - intros a s (Ha & Hs) Hu. cbn [drop_where_trait_item trait_item_tokens] in *. attrs_same. rewrite !free_app in Hu.
    destruct Hu as (U1 & U3 & _). cbn [visit_trait_item]. step (attrs_come _ Ha U1). step (node_comes _ _ Hs U3). done.
  - intros k ts Ho Hu. cbn [drop_where_trait_item trait_item_tokens trait_item_ok] in *. cbn [visit_trait_item]. step (node_comes _ _ Ho Hu). done.
  - intros a v d s b IH (Ha & Hv & Hs & Hb) Hu. cbn [drop_where_impl_item impl_item_tokens] in *. attrs_same. rewrite !free_app, free_group, free_app in Hu.
    destruct Hu as (U1 & U2 & _ & U3 & U4 & U5). rewrite visit_impl_fn. step (attrs_come _ Ha U1). step (node_comes _ _ Hv U2). step (node_comes _ _ Hs U3).
    step (children_come _ _ _ _ _ IH Hb U5). done.
  - intros k ts Ho Hu. cbn [drop_where_impl_item impl_item_tokens impl_item_ok] in *. cbn [visit_impl_item]. step (node_comes _ _ Ho Hu). done.
Qed.
Lemma stmt_comes s : TS s.
Proof.
  destruct s as [i|ts]; intros Ho Hu; cbn [drop_where_stmt stmt_tokens] in *.
  - assert (Hd : (exists ts, i = IOther ts) \/ (stmt_ok O reparse (SItem i) = item_ok O reparse i /\ visit_stmt O lookup reparse (SItem i) = let! i' := visit_item O lookup reparse i in Ok (SItem i')))
      by (destruct i; [right; split; reflexivity ..|left; eauto]).
    destruct Hd as [[ts ->]|[H1 H2]].
    + cbn [visit_stmt]. cbn [stmt_ok] in Ho. cbn [drop_where item_tokens] in Hu. step (other_comes _ F Ho Hu). done.
    + rewrite H1 in Ho. rewrite H2. step (item_comes i Ho Hu). done.
  - cbn [visit_stmt]. cbn [stmt_ok] in *. step (other_comes _ F Ho Hu). done.
Qed.

(** Substitution without aliases writes the strings anew. *)
Lemma sub_respelled ts : unaliased O lookup ts -> substituted O lookup ts = respelled O ts.
Proof.
  unfold substituted, replaced_stream, respelled.
  assert (Hl : forall ts, Forall (fun t => unaliased O lookup [t] -> replaced (tokens_of lookup) (literal_of O lookup) t = [respelled1 O t]) ts ->
     unaliased O lookup ts -> flat_map (replaced (tokens_of lookup) (literal_of O lookup)) ts = map (respelled1 O) ts).
  { clear ts. intros ts H. induction H as [|t ts Ht _ IH]; intros [Hu1 Hu2]; [reflexivity|]. cbn [flat_map map]. rewrite IH, Ht; [reflexivity| |].
    - split; [intros x Hx; apply Hu1|intros l c p Hx; apply Hu2]; unfold leaves in *; cbn [flat_map] in *; rewrite app_nil_r in Hx; apply in_or_app; left; exact Hx.
    - split; [intros x Hx; apply Hu1|intros l c p Hx; apply Hu2]; unfold leaves in *; cbn [flat_map]; apply in_or_app; right; exact Hx. }
  apply Hl. apply Forall_forall. intros t _. clear ts. induction t as [x|c j|l|d g IH] using tt_ind'; intros [Hu1 Hu2]; cbn [replaced respelled1].
  - unfold tokens_of. rewrite Hu1 by (left; reflexivity). reflexivity.
  - reflexivity.
  - unfold literal_of. destruct (parse_lit_str O [TLit l]) as [[v p]|] eqn:E; [|reflexivity].
    rewrite format_no_percent; [reflexivity|]. apply (Hu2 l v p); [left; reflexivity|exact E].
  - rewrite (Hl _ IH); [reflexivity|]. split; [intros x Hx; apply Hu1|intros l c p Hx; apply Hu2]; unfold leaves; cbn [flat_map leaves1]; rewrite app_nil_r; exact Hx.
Qed.

Theorem item_respelled it : (forall k, In k item_keywords -> lookup k = None) ->
  item_ok O reparse it -> unaliased O lookup (item_tokens (drop_where it)) ->
  exists it', visit_item O lookup reparse it = Ok it' /\ item_tokens it' = respelled O (item_tokens (drop_where it)).
Proof.
  intros Hk Ho Hu. destruct (item_comes it Ho (proj1 Hu)) as [it' H]. exists it'. split; [exact H|].
  rewrite (item_emit O lookup reparse F Hk _ _ H). apply sub_respelled. exact Hu.
Qed.
Theorem block_respelled l : (forall k, In k item_keywords -> lookup k = None) ->
  fold_right and True (map (stmt_ok O reparse) l) -> unaliased O lookup (block_tokens (map drop_where_stmt l)) ->
  exists l', visit_block O lookup reparse l = Ok l' /\ block_tokens l' = respelled O (block_tokens (map drop_where_stmt l)).
Proof.
  intros Hk Ho Hu.
  assert (Hc : exists l', visit_block O lookup reparse l = Ok l').
  { apply (children_come (stmt_ok O reparse) (visit_stmt O lookup reparse) stmt_tokens drop_where_stmt); [|exact Ho|exact (proj1 Hu)]. apply Forall_forall. intros s _. apply stmt_comes. }
  destruct Hc as [l' H]. exists l'. split; [exact H|].
  rewrite (block_emit O lookup reparse F Hk _ _ H). apply sub_respelled. exact Hu.
Qed.
End Comes.
