(** The item visitor: what a successful visit emits, and when it succeeds. *)
From Coq Require Import String.
From Verif Require Import Base BaseFacts Token Types Values FormatString StreamWalker SubstituteIdents SpecSubst WalkerProofs SubstFacts Item AliasSubstitution SpecItem.
Open Scope list_scope.

Lemma mapM_ok {A B} (f : A -> res B) l l' : mapM f l = Ok l' -> Forall2 (fun x y => f x = Ok y) l l'.
Proof.
  revert l'; induction l as [|x l IH]; intros l' H; cbn in H; [injection H as <-; constructor|].
  destruct (f x) as [y| |] eqn:E; try discriminate. cbn in H. destruct (mapM f l) as [r| |] eqn:Er; try discriminate. injection H as <-. constructor; auto.
Qed.
Lemma mapM_some {A B} (f : A -> res B) l l' : Forall2 (fun x y => f x = Ok y) l l' -> mapM f l = Ok l'.
Proof. induction 1 as [|x y l l' H _ IH]; [reflexivity|]. cbn. rewrite H. cbn. rewrite IH. reflexivity. Qed.

Ltac run H := repeat match type of H with
  | bind ?x _ = Ok _ => let E := fresh "E" in let r := fresh "r" in destruct x as [r| |] eqn:E; cbn [bind] in H; [|discriminate H|discriminate H]
  end.

Section Emit.
Context (O : oracles) (lookup : str -> option value) (reparse : kind -> list tt -> option (list tt)).
Context (F : faithful O reparse) (Hkw : forall k, In k item_keywords -> lookup k = None).
Notation sub := (substituted O lookup).

Lemma sub_app a b : sub (a ++ b) = sub a ++ sub b.
Proof. apply replaced_app. Qed.
Lemma sub_nil : sub [] = [].
Proof. reflexivity. Qed.
Lemma sub_sym x r : sub (sym x :: r) = sym x :: sub r.
Proof. reflexivity. Qed.
Lemma sub_group d g r : sub (TGroup d g :: r) = TGroup d (sub g) :: sub r.
Proof. reflexivity. Qed.
Lemma sub_ident x r : sub (TIdent x :: r) = sub [TIdent x] ++ sub r.
Proof. change (TIdent x :: r) with ([TIdent x] ++ r). apply sub_app. Qed.
Lemma sub_kw x r : In (txt x) item_keywords -> sub (kw x :: r) = kw x :: sub r.
Proof. intros H. unfold kw. rewrite sub_ident. unfold substituted, replaced_stream. cbn. unfold tokens_of. rewrite (Hkw _ H). reflexivity. Qed.
Lemma sub_kw_if b x : In (txt x) item_keywords -> sub (kw_if b x) = kw_if b x.
Proof. intros H. destruct b; [apply (sub_kw x [] H)|reflexivity]. Qed.
Lemma sub_flat_map {A} (f : A -> list tt) l : sub (flat_map f l) = flat_map (fun x => sub (f x)) l.
Proof. induction l as [|x l IH]; [reflexivity|]. cbn [flat_map]. rewrite sub_app, IH. reflexivity. Qed.
Lemma sub_concat l : sub (List.concat l) = List.concat (map sub l).
Proof. induction l as [|x l IH]; [reflexivity|]. cbn [List.concat map]. rewrite sub_app, IH. reflexivity. Qed.

Lemma node_emit k ts ts' : visit_node O lookup reparse k ts = Ok ts' -> ts' = sub ts.
Proof. intros H. apply substitutes in H. eapply faithful_node; [exact F|exact H]. Qed.
Lemma name_emit x x' : visit_name O lookup x = Ok x' -> [TIdent x'] = sub [TIdent x].
Proof. intros H. apply substitutes in H. symmetry. eapply faithful_ident; [exact F|exact H]. Qed.
Lemma abi_emit l v p : visit_abi O lookup l = Ok (v, p) -> [TLit (LStr v p)] = sub [TLit (LStr (fst l) (snd l))].
Proof. intros H. apply substitutes in H. symmetry. eapply faithful_str; [exact F|exact H]. Qed.

Definition sub_attr (a : attr) : attr := {| is_inner := is_inner a; meta := sub (meta a) |}.
Lemma sub_attrs l : sub (attrs_tokens l) = attrs_tokens (map sub_attr l).
Proof.
  unfold attrs_tokens. rewrite sub_flat_map. induction l as [|a l IH]; [reflexivity|]. cbn [flat_map map]. rewrite IH. f_equal.
  unfold attr_tokens, sub_attr. destruct (is_inner a); reflexivity.
Qed.
Lemma parse_outer_attrs l : forall l', parse_outer reparse (attrs_tokens l) = Some l' ->
  l' = l /\ Forall (fun a => is_inner a = false) l.
Proof.
  induction l as [|a l IH]; intros l' H; [injection H as <-; auto|].
  unfold attrs_tokens in H. cbn [flat_map] in H. unfold attr_tokens at 1 in H. destruct (is_inner a) eqn:Ei; [discriminate|].
  cbn [app parse_outer sym] in H. change (hd 0%N (txt "#")) with 35%N in H. cbn [N.eqb Pos.eqb] in H.
  destruct (reparse KMeta (meta a)) as [m|] eqn:Em; [|discriminate]. fold (attrs_tokens l) in H.
  destruct (parse_outer reparse (attrs_tokens l)) as [r|]; [|discriminate]. injection H as <-.
  destruct (IH r eq_refl) as [-> Hr]. apply (faithful_node _ _ F) in Em as ->. split; [destruct a; cbn in *; congruence|constructor; assumption].
Qed.

Lemma attrs_emit l l' : visit_attrs O lookup reparse l = Ok l' ->
  l' = map sub_attr l /\ outer l = l /\ inner l = [] /\ outer l' = l' /\ inner l' = [].
Proof.
  intros H. apply substitutes in H. rewrite sub_attrs in H. apply parse_outer_attrs in H as [-> H]. split; [reflexivity|].
  assert (Ho : forall l, Forall (fun a => is_inner a = false) l -> outer l = l /\ inner l = []).
  { clear. induction 1 as [|a l Ha _ [IH1 IH2]]; [split; reflexivity|]. unfold outer, inner in *. cbn [filter]. rewrite Ha. cbn [negb]. split; congruence. }
  assert (Hl : Forall (fun a => is_inner a = false) l).
  { rewrite Forall_map in H. exact H. }
  destruct (Ho _ H), (Ho _ Hl). auto.
Qed.

Lemma attrs_emit_tokens l l' : visit_attrs O lookup reparse l = Ok l' -> attrs_tokens l' = sub (attrs_tokens l).
Proof. intros H. apply attrs_emit in H as (-> & _). symmetry. apply sub_attrs. Qed.

Lemma field_emit f f' : visit_field O lookup reparse f = Ok f' -> field_tokens f' = sub (field_tokens f).
Proof.
  unfold visit_field. intros H. run H. injection H as <-. unfold field_tokens. cbn [f_attrs f_vis f_ident f_ty].
  rewrite !sub_app. apply attrs_emit_tokens in E as ->. apply node_emit in E0 as ->. apply node_emit in E2 as ->. do 2 f_equal.
  destruct (f_ident f) as [x|]; cbn [visit_opt] in E1; [|injection E1 as <-; reflexivity].
  run E1. injection E1 as <-. rewrite sub_ident. apply name_emit in E. rewrite <- E. reflexivity.
Qed.

Lemma punctuated_emit {A} (print : A -> list tt) s t l l' :
  Forall2 (fun x y => print y = sub (print x)) l l' ->
  punctuated print (sym s) t l' = sub (punctuated print (sym s) t l).
Proof.
  induction 1 as [|x y l l' H Hl IH]; [reflexivity|]. destruct Hl as [|x2 y2 l l' H2 Hl].
  - cbn [punctuated]. rewrite sub_app, H. destruct t; reflexivity.
  - cbn [punctuated] in IH |- *. rewrite sub_app, sub_sym, H, IH. reflexivity.
Qed.

Lemma Forall2_weaken {A B} (P Q : A -> B -> Prop) l l' : (forall x y, P x y -> Q x y) -> Forall2 P l l' -> Forall2 Q l l'.
Proof. intros H. induction 1; constructor; auto. Qed.

Lemma mapM_fields l l' : mapM (visit_field O lookup reparse) l = Ok l' ->
  Forall2 (fun x y => field_tokens y = sub (field_tokens x)) l l'.
Proof. intros H. apply mapM_ok in H. eapply Forall2_weaken; [|exact H]. intros x y. apply field_emit. Qed.

Lemma fields_emit f f' : visit_fields O lookup reparse f = Ok f' -> fields_tokens f' = sub (fields_tokens f) /\
  match f, f' with FNamed _ _, FNamed _ _ | FUnnamed _ _, FUnnamed _ _ | FUnit, FUnit => True | _, _ => False end.
Proof.
  destruct f as [l t|l t|]; cbn [visit_fields]; intros H; run H; injection H as <-; (split; [|exact I]); cbn [fields_tokens]; [| |reflexivity];
    rewrite sub_group; rewrite (punctuated_emit field_tokens _ _ _ _ (mapM_fields _ _ E)); reflexivity.
Qed.

Lemma variant_emit v v' : visit_variant O lookup reparse v = Ok v' -> variant_tokens v' = sub (variant_tokens v).
Proof.
  unfold visit_variant. intros H. run H. injection H as <-. unfold variant_tokens. cbn [v_attrs v_ident v_fields v_disc].
  rewrite sub_app, sub_ident, sub_app. apply attrs_emit_tokens in E as ->. apply name_emit in E0. rewrite <- E0.
  apply fields_emit in E1 as [-> _]. cbn [app]. do 3 f_equal.
  destruct (v_disc v) as [e|]; cbn [visit_opt] in E2; run E2; injection E2 as <-; [|reflexivity].
  rewrite sub_sym. apply node_emit in E as ->. reflexivity.
Qed.

Lemma generics_emit g g' : visit_generics O lookup reparse g = Ok g' -> g_params g' = sub (g_params g) /\ g_where g' = [].
Proof. unfold visit_generics. intros H. run H. injection H as <-. cbn. apply node_emit in E. auto. Qed.

Lemma other_stmt_emit ts ts' : visit_other_stmt O lookup reparse ts = Ok ts' -> ts' = sub ts.
Proof.
  unfold visit_other_stmt. destruct (reparse KBlock [TGroup Brace ts]) as [b|] eqn:Eb; [|discriminate].
  apply (faithful_node _ _ F) in Eb as ->. intros H. run H. apply node_emit in E as ->. rewrite sub_group in H. injection H as <-. reflexivity.
Qed.

Lemma flat_map_emit {A B} (p : A -> list tt) (q : B -> list tt) l l' :
  Forall2 (fun x y => q y = sub (p x)) l l' -> flat_map q l' = sub (flat_map p l).
Proof. induction 1 as [|x y l l' H _ IH]; [reflexivity|]. cbn [flat_map]. rewrite sub_app, H, IH. reflexivity. Qed.

Lemma flat_map_map {A B C} (f : A -> B) (g : B -> list C) l : flat_map g (map f l) = flat_map (fun x => g (f x)) l.
Proof. induction l as [|x l IH]; [reflexivity|]. cbn. rewrite IH. reflexivity. Qed.

Lemma children_emit {A} (visit : A -> res A) (print : A -> list tt) (drop : A -> A) l l' :
  Forall (fun x => forall y, visit x = Ok y -> print y = sub (print (drop x))) l ->
  mapM visit l = Ok l' -> flat_map print l' = sub (flat_map print (map drop l)).
Proof.
  intros HF H. apply mapM_ok in H. rewrite flat_map_map. apply (flat_map_emit (fun x => print (drop x))).
  induction H as [|x y l l' Hx H IH]; [constructor|]. inversion HF; subst. constructor; auto.
Qed.

Definition emits_item (i : item) : Prop := forall i', visit_item O lookup reparse i = Ok i' -> item_tokens i' = sub (item_tokens (drop_where i)).
Definition emits_stmt (s : stmt) : Prop := forall s', visit_stmt O lookup reparse s = Ok s' -> stmt_tokens s' = sub (stmt_tokens (drop_where_stmt s)).
Definition emits_trait_item (i : trait_item) : Prop :=
  forall i', visit_trait_item O lookup reparse i = Ok i' -> trait_item_tokens i' = sub (trait_item_tokens (drop_where_trait_item i)).
Definition emits_impl_item (i : impl_item) : Prop :=
  forall i', visit_impl_item O lookup reparse i = Ok i' -> impl_item_tokens i' = sub (impl_item_tokens (drop_where_impl_item i)).

Ltac kwin := cbn; tauto.
Ltac attrs_step E := let H := fresh in pose proof (attrs_emit_tokens _ _ E) as H;
  let H1 := fresh in let H2 := fresh in let H3 := fresh in let H4 := fresh in
  destruct (attrs_emit _ _ E) as (_ & H1 & H2 & H3 & H4); rewrite ?H1, ?H2, ?H3, ?H4.

Lemma item_emit i : emits_item i.
Proof.
  apply (item_ind' emits_item emits_stmt emits_trait_item emits_impl_item); unfold emits_item, emits_stmt, emits_trait_item, emits_impl_item; clear i.
  - (* fn *) intros a v s b IH i' H. cbn [visit_item] in H. run H. injection H as <-. cbn [item_tokens drop_where]. attrs_step E.
    cbn [attrs_tokens flat_map app]. rewrite !sub_app, sub_group, sub_nil. rewrite H. apply node_emit in E0 as ->. apply node_emit in E1 as ->.
    rewrite (children_emit _ _ drop_where_stmt _ _ IH E2). reflexivity.
  - (* struct *) intros a v x g f i' H. cbn [visit_item] in H. run H. injection H as <-. cbn [item_tokens drop_where]. attrs_step E.
    rewrite !sub_app. cbn [app]. rewrite sub_kw by kwin. rewrite H. apply node_emit in E0 as ->. apply name_emit in E1. rewrite <- E1.
    apply generics_emit in E2 as [-> ->]. cbn [app g_params g_where no_where_generics]. do 5 f_equal.
    apply fields_emit in E3 as [E3 Hf]. destruct f as [l t|l t|], r3 as [l' t'|l' t'|]; try contradiction; rewrite ?sub_app, ?E3; reflexivity.
  - (* enum *) intros a v x g l t i' H. cbn [visit_item] in H. run H. injection H as <-. cbn [item_tokens drop_where]. attrs_step E.
    rewrite !sub_app. cbn [app]. rewrite sub_kw by kwin. rewrite H. apply node_emit in E0 as ->. apply name_emit in E1. rewrite <- E1.
    apply generics_emit in E2 as [-> ->]. cbn [app g_params g_where no_where_generics]. rewrite sub_group, sub_nil. cbn [app].
    rewrite (punctuated_emit variant_tokens "," t l r3); [reflexivity|]. apply mapM_ok in E3. eapply Forall2_weaken; [|exact E3]. intros p q. apply variant_emit.
  - (* union *) intros a v x g l t i' H. cbn [visit_item] in H. run H. injection H as <-. cbn [item_tokens drop_where]. attrs_step E.
    rewrite !sub_app. cbn [app]. rewrite sub_kw by kwin. rewrite H. apply node_emit in E0 as ->. apply name_emit in E1. rewrite <- E1.
    apply generics_emit in E2 as [-> ->]. cbn [app g_params g_where no_where_generics]. rewrite sub_group, sub_nil. cbn [app].
    rewrite (punctuated_emit field_tokens "," t l r3); [reflexivity|]. apply mapM_fields. exact E3.
  - (* trait *) intros a v u au x g s t l IH i' H. cbn [visit_item] in H. run H. injection H as <-. cbn [item_tokens drop_where]. attrs_step E.
    rewrite !sub_app. rewrite !sub_kw_if by kwin. cbn [app]. rewrite sub_kw by kwin. rewrite H. apply node_emit in E0 as ->. apply name_emit in E1. rewrite <- E1.
    apply generics_emit in E2 as [-> ->]. cbn [app g_params g_where no_where_generics attrs_tokens flat_map]. rewrite sub_group, !sub_nil. cbn [app].
    rewrite (children_emit _ _ drop_where_trait_item _ _ IH E4).
    assert (Hs : (match r3 with [] => [] | _ => sym ":" :: punctuated (fun b => b) (sym "+") t r3 end) =
                 sub (match s with [] => [] | _ => sym ":" :: punctuated (fun b => b) (sym "+") t s end)).
    { apply mapM_ok in E3. assert (E3' : Forall2 (fun x y : list tt => y = sub x) s r3) by (eapply Forall2_weaken; [|exact E3]; intros p q; apply node_emit).
      pose proof (punctuated_emit (fun b => b) "+" t _ _ E3') as Hp. destruct E3'; [reflexivity|]. rewrite sub_sym, <- Hp. reflexivity. }
    rewrite Hs. reflexivity.
  - (* impl *) intros a d u g tr ty l IH i' H. cbn [visit_item] in H. run H. injection H as <-. cbn [item_tokens drop_where]. attrs_step E.
    rewrite !sub_app. rewrite !sub_kw_if by kwin. rewrite sub_kw by kwin. rewrite sub_nil, H. apply generics_emit in E0 as [-> ->].
    apply node_emit in E2 as ->. cbn [app g_params g_where no_where_generics attrs_tokens flat_map]. rewrite sub_group, !sub_nil. cbn [app].
    rewrite (children_emit _ _ drop_where_impl_item _ _ IH E3). do 5 f_equal.
    f_equal. destruct tr as [[bang p]|]; cbn [visit_opt fst snd] in E1; run E1; injection E1 as <-; [|reflexivity].
    run E0. injection E0 as <-. apply node_emit in E1 as ->. rewrite !sub_app, sub_kw, sub_nil by kwin. destruct bang; reflexivity.
  - (* mod *) intros a v u x l IH i' H. cbn [visit_item] in H. run H. injection H as <-. cbn [item_tokens drop_where]. attrs_step E.
    rewrite !sub_app. rewrite !sub_kw_if by kwin. cbn [app]. rewrite sub_kw by kwin. rewrite H. apply node_emit in E0 as ->. apply name_emit in E1. rewrite <- E1.
    run E2. injection E2 as <-. cbn [app attrs_tokens flat_map]. rewrite sub_group, !sub_nil. rewrite (children_emit _ _ drop_where _ _ IH E0). reflexivity.
  - (* mod; *) intros a v u x i' H. cbn [visit_item] in H. run H. injection H as <-. cbn [item_tokens drop_where]. attrs_step E.
    rewrite !sub_app. rewrite !sub_kw_if by kwin. cbn [app]. rewrite sub_kw by kwin. rewrite H. apply node_emit in E0 as ->. apply name_emit in E1. rewrite <- E1. reflexivity.
  - (* foreign *) intros a u abi l i' H. cbn [visit_item] in H. run H. injection H as <-. cbn [item_tokens drop_where]. attrs_step E.
    rewrite !sub_app. rewrite !sub_kw_if by kwin. rewrite sub_kw by kwin. rewrite sub_nil, H. cbn [app attrs_tokens flat_map]. rewrite sub_group, sub_nil, sub_concat.
    do 4 f_equal.
    + destruct abi as [p|]; cbn [visit_opt] in E0; run E0; injection E0 as <-; [|reflexivity]. destruct r2 as [v p0]. apply abi_emit in E2. rewrite E2. destruct p; reflexivity.
    + f_equal. f_equal. f_equal. apply mapM_ok in E1. clear -E1 F. induction E1 as [|x y l l' Hx _ IH]; [reflexivity|]. cbn [map]. apply node_emit in Hx as ->. congruence.
  - (* other *) intros ts i' H. cbn [visit_item] in H. run H. injection H as <-. apply node_emit in E. exact E.
  - (* statement item *) intros i IH s' H. cbn [drop_where_stmt stmt_tokens].
    destruct i; cbn [visit_stmt] in H; run H; injection H as <-; cbn [stmt_tokens]; try (apply IH; reflexivity || assumption).
    cbn [drop_where item_tokens]. apply other_stmt_emit. exact E.
  - intros ts s' H. cbn [visit_stmt] in H. run H. injection H as <-. apply other_stmt_emit. exact E.
  - (* trait fn *) intros a s b IH i' H. cbn [visit_trait_item] in H. run H. injection H as <-. run E1. injection E1 as <-. cbn [trait_item_tokens drop_where_trait_item]. attrs_step E.
    cbn [attrs_tokens flat_map app]. rewrite !sub_app, sub_group, sub_nil. rewrite H. apply node_emit in E0 as ->.
    rewrite (children_emit _ _ drop_where_stmt _ _ IH E2). reflexivity.
  - intros a s i' H. cbn [visit_trait_item] in H. run H. injection H as <-. cbn [trait_item_tokens drop_where_trait_item]. attrs_step E.
    rewrite !sub_app, H. apply node_emit in E0 as ->. reflexivity.
  - intros k ts i' H. cbn [visit_trait_item] in H. run H. injection H as <-. apply node_emit in E. exact E.
  - (* impl fn *) intros a v d s b IH i' H. cbn [visit_impl_item] in H. run H. injection H as <-. cbn [impl_item_tokens drop_where_impl_item]. attrs_step E.
    cbn [attrs_tokens flat_map app]. rewrite !sub_app, sub_kw_if, sub_group, sub_nil by kwin. rewrite H. apply node_emit in E0 as ->. apply node_emit in E1 as ->.
    rewrite (children_emit _ _ drop_where_stmt _ _ IH E2). reflexivity.
  - intros k ts i' H. cbn [visit_impl_item] in H. run H. injection H as <-. apply node_emit in E. exact E.
Qed.

Lemma stmt_emit s : emits_stmt s.
Proof.
  destruct s as [i|ts]; intros s' H.
  - pose proof (item_emit i) as IH. unfold emits_item in IH. cbn [drop_where_stmt stmt_tokens].
    destruct i; cbn [visit_stmt] in H; run H; injection H as <-; cbn [stmt_tokens]; try (apply IH; assumption).
    cbn [drop_where item_tokens]. apply other_stmt_emit. exact E.
  - cbn [visit_stmt] in H. run H. injection H as <-. apply other_stmt_emit. exact E.
Qed.

Lemma block_emit l l' : visit_block O lookup reparse l = Ok l' -> block_tokens l' = sub (block_tokens (map drop_where_stmt l)).
Proof.
  intros H. apply (children_emit (visit_stmt O lookup reparse)); [|exact H]. apply Forall_forall. intros s _. apply stmt_emit.
Qed.
End Emit.
