(** Items that mention no alias are visited without error and come out unchanged (but for
    where clauses). *)
From Coq Require Import String.
From Verif Require Import Base BaseFacts Token Types Values FormatString FormatProofs StreamWalker SubstituteIdents SpecSubst WalkerProofs SubstFacts Item AliasSubstitution SpecItem VisitorProofs.
Open Scope list_scope.

Section Total.
Context (O : oracles) (lookup : str -> option value) (reparse : kind -> list tt -> option (list tt)).
Notation unt := (untouched O lookup).

Lemma unt_app a b : unt (a ++ b) <-> unt a /\ unt b.
Proof.
  unfold untouched. rewrite leaves_app. split.
  - intros [H1 H2]. repeat split; intros y Hy; auto using in_or_app.
  - intros [[H1 H2] [H3 H4]]. split; intros y Hy; apply in_app_or in Hy as [Hy|Hy]; auto.
Qed.
Lemma unt_group d g : unt [TGroup d g] <-> unt g.
Proof. unfold untouched, leaves. cbn [flat_map leaves1]. rewrite app_nil_r. reflexivity. Qed.
Lemma unt_cons t r : unt (t :: r) <-> unt [t] /\ unt r.
Proof. apply (unt_app [t] r). Qed.
Lemma unt_flat_map {A} (f : A -> list tt) l : unt (flat_map f l) <-> Forall (fun x => unt (f x)) l.
Proof.
  induction l as [|x l IH]; cbn [flat_map]; [split; [constructor|intros _; split; intros y []]|]. rewrite unt_app, IH. split; [intros []; constructor; auto|intros H; inversion H; auto].
Qed.
Lemma unt_concat l : unt (List.concat l) <-> Forall unt l.
Proof. rewrite <- (unt_flat_map (fun x => x)). replace (flat_map (fun x => x) l) with (List.concat l); [reflexivity|]. induction l; cbn; congruence. Qed.
Lemma unt_punctuated {A} (print : A -> list tt) s t l : unt (punctuated print (sym s) t l) -> Forall (fun x => unt (print x)) l.
Proof.
  induction l as [|x l IH]; [constructor|]. destruct l as [|y l].
  - cbn [punctuated]. rewrite unt_app. intros []. constructor; auto.
  - intros H. change (unt (print x ++ sym s :: punctuated print (sym s) t (y :: l))) in H. rewrite unt_app, unt_cons in H. constructor; tauto.
Qed.

Lemma literal_same l : (parse_lit_str O [TLit l] = None \/ exists v, l = LStr v [] /\ ~ In 37%N v /\ parse_lit_str O [TLit l] = Some (v, [])) ->
  literal_of O lookup l = None \/ literal_of O lookup l = Some l.
Proof.
  unfold literal_of. intros [-> |(v & -> & Hp & ->)]; [auto|]. right. rewrite format_no_percent by exact Hp. reflexivity.
Qed.

Lemma stages_same ts : unt ts -> forall s, In s (substitution_stages O lookup ts) -> snd s = ts.
Proof.
  unfold substitution_stages. set (al := tokens_of lookup). set (nl := literal_of O lookup).
  assert (Hr : forall t, unt [t] -> replaced al nl t = [t]).
  { intros t [H1 H2]. pose proof (replaced_unchanged al nl [t]) as H. unfold replaced_stream in H. cbn [flat_map] in H. rewrite app_nil_r in H. apply H.
    - intros x Hx. unfold al, tokens_of. rewrite H1 by exact Hx. reflexivity.
    - intros l Hl. apply literal_same, H2, Hl. }
  assert (Hl : forall ts, Forall (fun t => unt [t] -> forall s, In s (stages1 al nl t) -> snd s = [t]) ts -> unt ts -> forall s, In s (stages al nl ts) -> snd s = ts).
  { clear ts. intros ts H. induction H as [|t ts Ht _ IH]; intros Hu s Hs; [contradiction|]. rewrite unt_cons in Hu. destruct Hu as [Hu1 Hu2].
    cbn [stages] in Hs. apply in_app_or in Hs as [Hs|Hs]; apply in_map_iff in Hs as (s' & <- & Hs'); cbn [snd].
    - rewrite (Ht Hu1 _ Hs'). reflexivity.
    - rewrite (IH Hu2 _ Hs'), Hr by exact Hu1. reflexivity. }
  apply Hl. apply Forall_forall. intros t _. clear ts. induction t as [x|c j|l|d g IH] using tt_ind'; intros Hu s Hs; cbn [stages1] in Hs.
  - specialize (Hr _ Hu). cbn [replaced] in Hr. destruct (al x); [|contradiction]. destruct Hs as [<-|[]]. exact Hr.
  - contradiction.
  - specialize (Hr _ Hu). cbn [replaced] in Hr. destruct (nl l); [|contradiction]. destruct Hs as [<-|[]]. exact Hr.
  - apply in_map_iff in Hs as (s' & <- & Hs'). cbn [snd]. rewrite unt_group in Hu. rewrite (Hl _ IH Hu s' Hs'). reflexivity.
Qed.

Lemma sub_same ts : unt ts -> substituted O lookup ts = ts.
Proof.
  intros [H1 H2]. apply replaced_unchanged.
  - intros x Hx. unfold tokens_of. rewrite H1 by exact Hx. reflexivity.
  - intros l Hl. apply literal_same, H2, Hl.
Qed.

Lemma run_same {N} (parse : list tt -> option N) ts n : unt ts -> parse ts = Some n -> substitute_idents O lookup parse ts = Ok n.
Proof.
  intros Hu Hp. apply success_iff. rewrite sub_same by exact Hu. split; [exact Hp|]. intros s Hs. rewrite (stages_same _ Hu _ Hs). congruence.
Qed.

Lemma node_total k ts : node_ok reparse k ts -> unt ts -> visit_node O lookup reparse k ts = Ok ts.
Proof. intros H Hu. apply run_same; assumption. Qed.
Lemma name_total x : name_ok O x -> unt [TIdent x] -> visit_name O lookup x = Ok x.
Proof. intros H Hu. apply run_same; assumption. Qed.

Lemma attrs_parse l : attrs_ok reparse l -> parse_outer reparse (attrs_tokens l) = Some l.
Proof.
  induction 1 as [|a l [Ha Hm] _ IH]; [reflexivity|]. unfold attrs_tokens. cbn [flat_map]. unfold attr_tokens at 1. rewrite Ha.
  cbn [app sym parse_outer]. change (hd 0%N (txt "#")) with 35%N. cbn [N.eqb Pos.eqb]. unfold node_ok in Hm. rewrite Hm. fold (attrs_tokens l). rewrite IH.
  destruct a; cbn in *; subst; reflexivity.
Qed.
Lemma attrs_total l : attrs_ok reparse l -> unt (attrs_tokens l) -> visit_attrs O lookup reparse l = Ok l.
Proof. intros H Hu. apply run_same; [exact Hu|]. apply attrs_parse; exact H. Qed.
Lemma attrs_outer l : attrs_ok reparse l -> outer l = l /\ inner l = [].
Proof.
  induction 1 as [|a l [Ha _] _ [IH1 IH2]]; [split; reflexivity|]. unfold outer, inner in *. cbn [filter]. rewrite Ha. cbn [negb]. split; congruence.
Qed.

Lemma mapM_total {A} (f : A -> res A) l : Forall (fun x => f x = Ok x) l -> mapM f l = Ok l.
Proof. induction 1 as [|x l H _ IH]; [reflexivity|]. cbn. rewrite H. cbn. rewrite IH. reflexivity. Qed.
Lemma Forall_both {A} (P Q R : A -> Prop) l : (forall x, P x -> Q x -> R x) -> Forall P l -> Forall Q l -> Forall R l.
Proof. intros H HP. induction HP; intros HQ; inversion HQ; constructor; auto. Qed.

Lemma field_total f : field_ok O reparse f -> unt (field_tokens f) -> visit_field O lookup reparse f = Ok f.
Proof.
  intros (Ha & Hv & Hx & Ht). unfold field_tokens. rewrite !unt_app. intros (U1 & U2 & U3 & U4). unfold visit_field.
  rewrite attrs_total by assumption. cbn [bind]. rewrite node_total by assumption. cbn [bind].
  destruct f as [a v [x|] t]; cbn [f_attrs f_vis f_ident f_ty visit_opt] in *.
  - rewrite unt_cons in U3. rewrite name_total; [|apply Hx; reflexivity|tauto]. cbn [bind]. rewrite node_total by assumption. reflexivity.
  - cbn [bind]. rewrite node_total by assumption. reflexivity.
Qed.
Lemma field_list_total l s t : Forall (field_ok O reparse) l -> unt (punctuated field_tokens (sym s) t l) -> mapM (visit_field O lookup reparse) l = Ok l.
Proof. intros Hl Hu. apply mapM_total. eapply Forall_both; [|exact Hl|eapply unt_punctuated; exact Hu]. apply field_total. Qed.

Lemma fields_total f : fields_ok O reparse f -> unt (fields_tokens f) -> visit_fields O lookup reparse f = Ok f.
Proof.
  destruct f as [l t|l t|]; cbn [fields_ok fields_tokens visit_fields]; [| |reflexivity]; rewrite unt_group; intros Hl Hu;
    rewrite (field_list_total _ _ _ Hl Hu); reflexivity.
Qed.
Lemma variant_total v : variant_ok O reparse v -> unt (variant_tokens v) -> visit_variant O lookup reparse v = Ok v.
Proof.
  intros (Ha & Hx & Hf & Hd). unfold variant_tokens. rewrite unt_app, unt_cons, unt_app. intros (U1 & U2 & U3 & U4). unfold visit_variant.
  rewrite attrs_total by assumption. cbn [bind]. rewrite name_total by assumption. cbn [bind]. rewrite fields_total by assumption. cbn [bind].
  destruct v as [a x f [e|]]; cbn [v_attrs v_ident v_fields v_disc visit_opt] in *; [|reflexivity].
  rewrite unt_cons in U4. rewrite node_total; [reflexivity|apply Hd; reflexivity|tauto].
Qed.
Lemma generics_total g : node_ok reparse KGenerics (g_params g) -> unt (g_params g) -> visit_generics O lookup reparse g = Ok (no_where_generics g).
Proof. intros H Hu. unfold visit_generics. rewrite node_total by assumption. reflexivity. Qed.
Lemma other_total ts : stmt_tokens_ok reparse ts -> unt ts -> visit_other_stmt O lookup reparse ts = Ok ts.
Proof.
  unfold stmt_tokens_ok. intros H Hu. unfold visit_other_stmt. pose proof H as H'. unfold node_ok in H'. rewrite H'. rewrite node_total; [reflexivity|exact H|]. apply unt_group. exact Hu.
Qed.

Definition T {A} (ok : A -> Prop) (visit : A -> res A) (print : A -> list tt) (drop : A -> A) (x : A) : Prop :=
  ok x -> unt (print (drop x)) -> exists y, visit x = Ok y /\ print y = print (drop x).
Lemma children_total {A} ok visit print drop (l : list A) :
  Forall (T ok visit print drop) l -> fold_right and True (map ok l) -> unt (flat_map print (map drop l)) ->
  exists l', mapM visit l = Ok l' /\ flat_map print l' = flat_map print (map drop l).
Proof.
  induction 1 as [|x l Hx _ IH]; intros Hok Hu; [exists []; split; reflexivity|]. cbn [map fold_right flat_map] in *. rewrite unt_app in Hu.
  destruct Hok as [Ho1 Ho2], Hu as [Hu1 Hu2]. destruct (Hx Ho1 Hu1) as (y & Hy & Ey). destruct (IH Ho2 Hu2) as (r & Hr & Er).
  exists (y :: r). cbn [mapM]. rewrite Hy. cbn [bind]. rewrite Hr. cbn [bind flat_map]. split; [reflexivity|congruence].
Qed.

Notation VA := (visit_attrs O lookup reparse).
Notation VN := (visit_node O lookup reparse).
Notation VX := (visit_name O lookup).
Lemma visit_fn a v s b : visit_item O lookup reparse (IFn a v s b) =
  let! a := VA a in let! v := VN KVis v in let! s := VN KSig s in let! b := mapM (visit_stmt O lookup reparse) b in Ok (IFn a v s b).
Proof. reflexivity. Qed.
Lemma visit_trait a v u au x g s t l : visit_item O lookup reparse (ITrait a v u au x g s t l) =
  let! a := VA a in let! v := VN KVis v in let! x := VX x in let! g := visit_generics O lookup reparse g in
  let! s := mapM (VN KBound) s in let! l := mapM (visit_trait_item O lookup reparse) l in Ok (ITrait a v u au x g s t l).
Proof. reflexivity. Qed.
Lemma visit_impl a d u g tr ty l : visit_item O lookup reparse (IImpl a d u g tr ty l) =
  let! a := VA a in let! g := visit_generics O lookup reparse g in
  let! tr := visit_opt (fun bp : bool * list tt => let! p := VN KPath (snd bp) in Ok (fst bp, p)) tr in
  let! ty := VN KType ty in let! l := mapM (visit_impl_item O lookup reparse) l in Ok (IImpl a d u g tr ty l).
Proof. reflexivity. Qed.
Lemma visit_mod a v u x l : visit_item O lookup reparse (IMod a v u x (Some l)) =
  let! a := VA a in let! v := VN KVis v in let! x := VX x in
  let! c := (let! l := mapM (visit_item O lookup reparse) l in Ok (Some l)) in Ok (IMod a v u x c).
Proof. reflexivity. Qed.
Lemma visit_trait_fn a s b : visit_trait_item O lookup reparse (TFn a s (Some b)) =
  let! a := VA a in let! s := VN KSig s in let! c := (let! b := mapM (visit_stmt O lookup reparse) b in Ok (Some b)) in Ok (TFn a s c).
Proof. reflexivity. Qed.
Lemma visit_impl_fn a v d s b : visit_impl_item O lookup reparse (MFn a v d s b) =
  let! a := VA a in let! v := VN KVis v in let! s := VN KSig s in let! b := mapM (visit_stmt O lookup reparse) b in Ok (MFn a v d s b).
Proof. reflexivity. Qed.

Notation TI := (T (item_ok O reparse) (visit_item O lookup reparse) item_tokens drop_where).
Notation TS := (T (stmt_ok O reparse) (visit_stmt O lookup reparse) stmt_tokens drop_where_stmt).
Notation TT := (T (trait_item_ok O reparse) (visit_trait_item O lookup reparse) trait_item_tokens drop_where_trait_item).
Notation TM := (T (impl_item_ok O reparse) (visit_impl_item O lookup reparse) impl_item_tokens drop_where_impl_item).

Ltac open := repeat first [rewrite unt_app in * | rewrite unt_group in *]; intuition idtac.
Ltac attrs_same := match goal with H : attrs_ok reparse ?a |- _ => let H1 := fresh in let H2 := fresh in destruct (attrs_outer a H) as [H1 H2]; rewrite ?H1, ?H2 in * end.
Ltac go := repeat (first [rewrite attrs_total by assumption | rewrite node_total by assumption | rewrite name_total by assumption |
                          rewrite generics_total by assumption | rewrite fields_total by assumption]; cbn [bind]).

Lemma item_total i : TI i.
Proof.
  apply (item_ind' TI TS TT TM); unfold T; clear i.
  - (* fn *) intros a v s b IH (Ha & Hv & Hs & Hb) Hu. cbn [drop_where item_tokens] in *. attrs_same. rewrite !unt_app, unt_group, unt_app in Hu.
    destruct Hu as (U1 & U2 & U3 & U4 & U5). destruct (children_total _ _ _ _ _ IH Hb U5) as (b' & Eb & Tb).
    exists (IFn a v s b'). rewrite visit_fn. go. rewrite Eb. split; [reflexivity|]. cbn [item_tokens]. attrs_same. rewrite Tb. reflexivity.
  - (* struct *) intros a v x g f (Ha & Hv & Hx & Hg & Hf) Hu. cbn [drop_where item_tokens] in *. attrs_same. rewrite !unt_app, unt_cons in Hu.
    destruct Hu as (U1 & U2 & (U3 & U4) & U5 & U6). exists (IStruct a v x (no_where_generics g) f).
    assert (U7 : unt (fields_tokens f)) by (destruct f; cbn [g_where no_where_generics app] in U6; rewrite ?unt_app in U6; try tauto; split; intros ? []).
    cbn [visit_item]. go. split; [reflexivity|]. cbn [item_tokens]. attrs_same. reflexivity.
  - (* enum *) intros a v x g l t (Ha & Hv & Hx & Hg & Hl) Hu. cbn [drop_where item_tokens] in *. attrs_same. rewrite !unt_app, unt_cons, unt_group in Hu.
    destruct Hu as (U1 & U2 & (U3 & U4) & U5 & _ & U6). exists (IEnum a v x (no_where_generics g) l t).
    cbn [visit_item]. go. rewrite (mapM_total (visit_variant O lookup reparse) l); [|eapply Forall_both; [|exact Hl|eapply unt_punctuated; exact U6]; apply variant_total].
    split; [reflexivity|]. cbn [item_tokens]. attrs_same. reflexivity.
  - (* union *) intros a v x g l t (Ha & Hv & Hx & Hg & Hl) Hu. cbn [drop_where item_tokens] in *. attrs_same. rewrite !unt_app, unt_cons, unt_group in Hu.
    destruct Hu as (U1 & U2 & (U3 & U4) & U5 & _ & U6). exists (IUnion a v x (no_where_generics g) l t).
    cbn [visit_item]. go. rewrite (field_list_total _ _ _ Hl U6). split; [reflexivity|]. cbn [item_tokens]. attrs_same. reflexivity.
  - (* trait *) intros a v u au x g s t l IH (Ha & Hv & Hx & Hg & Hs & Hl) Hu. cbn [drop_where item_tokens] in *. attrs_same. rewrite !unt_app, unt_cons, unt_group, unt_app in Hu.
    destruct Hu as (U1 & U2 & _ & _ & (U3 & U4) & U5 & U6 & _ & _ & U7). destruct (children_total _ _ _ _ _ IH Hl U7) as (l' & El & Tl).
    exists (ITrait a v u au x (no_where_generics g) s t l'). rewrite visit_trait. go.
    assert (Hm : mapM (visit_node O lookup reparse KBound) s = Ok s).
    { apply mapM_total. apply (Forall_both (node_ok reparse KBound) unt); [apply node_total|exact Hs|]. destruct s as [|y s]; [constructor|].
      rewrite unt_cons in U6. apply (unt_punctuated (fun b => b) "+" t). tauto. }
    rewrite Hm. cbn [bind]. rewrite El. split; [reflexivity|]. cbn [item_tokens]. attrs_same. rewrite Tl. reflexivity.
  - (* impl *) intros a d u g tr ty l IH (Ha & Hg & Htr & Hty & Hl) Hu. cbn [drop_where item_tokens] in *. attrs_same. rewrite !unt_app, unt_group, unt_app in Hu.
    destruct Hu as (U1 & _ & _ & _ & U2 & U3 & U4 & _ & _ & U5). destruct (children_total _ _ _ _ _ IH Hl U5) as (l' & El & Tl).
    exists (IImpl a d u (no_where_generics g) tr ty l'). rewrite visit_impl. go.
    assert (Ht : visit_opt (fun bp : bool * list tt => let! p := visit_node O lookup reparse KPath (snd bp) in Ok (fst bp, p)) tr = Ok tr).
    { destruct tr as [[bang p]|]; [|reflexivity]. rewrite !unt_app in U3. cbn [visit_opt fst snd]. rewrite node_total; [reflexivity|eapply Htr; reflexivity|tauto]. }
    rewrite Ht. cbn [bind]. go. rewrite El. split; [reflexivity|]. cbn [item_tokens]. attrs_same. rewrite Tl. reflexivity.
  - (* mod *) intros a v u x l IH (Ha & Hv & Hx & Hl) Hu. cbn [drop_where item_tokens] in *. attrs_same. rewrite !unt_app, unt_cons, unt_group, unt_app in Hu.
    destruct Hu as (U1 & U2 & _ & (_ & U3) & _ & U4). destruct (children_total _ _ _ _ _ IH Hl U4) as (l' & El & Tl).
    exists (IMod a v u x (Some l')). rewrite visit_mod. go. rewrite El. split; [reflexivity|]. cbn [item_tokens]. attrs_same. rewrite Tl. reflexivity.
  - intros a v u x (Ha & Hv & Hx) Hu. cbn [drop_where item_tokens] in *. attrs_same. rewrite !unt_app, unt_cons in Hu.
    destruct Hu as (U1 & U2 & _ & (_ & U3) & _). exists (IMod a v u x None). cbn [visit_item]. go. split; [reflexivity|]. cbn [item_tokens]. attrs_same. reflexivity.
  - (* foreign *) intros a u abi l (Ha & Habi & Hl) Hu. cbn [drop_where item_tokens] in *. attrs_same. rewrite !unt_app, unt_group, unt_app, unt_concat in Hu.
    destruct Hu as (U1 & _ & _ & U2 & _ & U3). exists (IForeign a u abi l). cbn [visit_item]. go.
    assert (Hb : visit_opt (visit_abi O lookup) abi = Ok abi).
    { destruct abi as [[v p]|]; [|reflexivity]. cbn [visit_opt]. unfold visit_abi. cbn [fst snd]. rewrite (run_same _ _ (v, p)); [reflexivity|exact U2|apply Habi; reflexivity]. }
    rewrite Hb. cbn [bind]. rewrite (mapM_total (visit_node O lookup reparse KForeignItem) l); [|eapply Forall_both; [|exact Hl|exact U3]; apply node_total].
    split; [reflexivity|]. cbn [item_tokens]. attrs_same. reflexivity.
  - intros ts Ho Hu. cbn [drop_where item_tokens] in *. exists (IOther ts). cbn [visit_item]. cbn [item_ok] in Ho. go. split; reflexivity.
  - intros i IH Ho Hu. cbn [drop_where_stmt stmt_tokens] in *.
    assert (Hd : (exists ts, i = IOther ts) \/ (stmt_ok O reparse (SItem i) = item_ok O reparse i /\ visit_stmt O lookup reparse (SItem i) = let! i' := visit_item O lookup reparse i in Ok (SItem i')))
      by (destruct i; [right; split; reflexivity ..|left; eauto]).
    destruct Hd as [[ts ->]|[H1 H2]].
    + exists (SOther ts). cbn [visit_stmt]. cbn [stmt_ok] in Ho. cbn [drop_where item_tokens] in Hu. rewrite other_total by assumption. split; reflexivity.
    + rewrite H1 in Ho. destruct (IH Ho Hu) as (i' & Hi & Ti). exists (SItem i'). rewrite H2, Hi. split; [reflexivity|exact Ti].
  - intros ts Ho Hu. exists (SOther ts). cbn [visit_stmt]. cbn [stmt_ok drop_where_stmt stmt_tokens] in *. rewrite other_total by assumption. split; reflexivity.
  - intros a s b IH (Ha & Hs & Hb) Hu. cbn [drop_where_trait_item trait_item_tokens] in *. attrs_same. rewrite !unt_app, unt_group, unt_app in Hu.
    destruct Hu as (U1 & U3 & U4 & U5). destruct (children_total _ _ _ _ _ IH Hb U5) as (b' & Eb & Tb).
    exists (TFn a s (Some b')). rewrite visit_trait_fn. go. rewrite Eb. split; [reflexivity|]. cbn [trait_item_tokens]. attrs_same. rewrite Tb. reflexivity.
  - intros a s (Ha & Hs) Hu. cbn [drop_where_trait_item trait_item_tokens] in *. attrs_same. rewrite !unt_app in Hu.
    destruct Hu as (U1 & U3 & _). exists (TFn a s None). cbn [visit_trait_item]. go. split; [reflexivity|]. cbn [trait_item_tokens]. attrs_same. reflexivity.
  - intros k ts Ho Hu. cbn [drop_where_trait_item trait_item_tokens trait_item_ok] in *. exists (TOther k ts). cbn [visit_trait_item]. go. split; reflexivity.
  - intros a v d s b IH (Ha & Hv & Hs & Hb) Hu. cbn [drop_where_impl_item impl_item_tokens] in *. attrs_same. rewrite !unt_app, unt_group, unt_app in Hu.
    destruct Hu as (U1 & U2 & _ & U3 & U4 & U5). destruct (children_total _ _ _ _ _ IH Hb U5) as (b' & Eb & Tb).
    exists (MFn a v d s b'). rewrite visit_impl_fn. go. rewrite Eb. split; [reflexivity|]. cbn [impl_item_tokens]. attrs_same. rewrite Tb. reflexivity.
  - intros k ts Ho Hu. cbn [drop_where_impl_item impl_item_tokens impl_item_ok] in *. exists (MOther k ts). cbn [visit_impl_item]. go. split; reflexivity.
Qed.

Lemma stmt_total s : TS s.
Proof.
  destruct s as [i|ts]; intros Ho Hu; cbn [drop_where_stmt stmt_tokens] in *.
  - assert (Hd : (exists ts, i = IOther ts) \/ (stmt_ok O reparse (SItem i) = item_ok O reparse i /\ visit_stmt O lookup reparse (SItem i) = let! i' := visit_item O lookup reparse i in Ok (SItem i')))
      by (destruct i; [right; split; reflexivity ..|left; eauto]).
    destruct Hd as [[ts ->]|[H1 H2]].
    + exists (SOther ts). cbn [visit_stmt]. cbn [stmt_ok] in Ho. cbn [drop_where item_tokens] in Hu. rewrite other_total by assumption. split; reflexivity.
    + rewrite H1 in Ho. destruct (item_total i Ho Hu) as (i' & Hi & Ti). exists (SItem i'). rewrite H2, Hi. split; [reflexivity|exact Ti].
  - exists (SOther ts). cbn [visit_stmt]. cbn [stmt_ok] in *. rewrite other_total by assumption. split; reflexivity.
Qed.

Lemma block_total l : fold_right and True (map (stmt_ok O reparse) l) -> unt (block_tokens (map drop_where_stmt l)) ->
  exists l', visit_block O lookup reparse l = Ok l' /\ block_tokens l' = block_tokens (map drop_where_stmt l).
Proof. intros Ho Hu. apply (children_total (stmt_ok O reparse)); [|exact Ho|exact Hu]. apply Forall_forall. intros s _. apply stmt_total. Qed.
End Total.
