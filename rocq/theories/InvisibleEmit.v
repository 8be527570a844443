(** What a successful visit emits, if what is parsed again prints as what was read but for
    invisible groups (VisitorProofs is about parsers that print exactly what was read). *)
From Coq Require Import String.
From Verif Require Import Base BaseFacts Token Types Values FormatString StreamWalker SubstituteIdents SpecSubst WalkerProofs SubstFacts
  Item AliasSubstitution Deprecation Interpreter SpecItem VisitorProofs SpecInvisible InvisibleProofs SpecInvisibleRun.
Open Scope list_scope.

Lemma fapp a a' b b' : flats a = flats a' -> flats b = flats b' -> flats (a ++ b) = flats (a' ++ b').
Proof. intros H1 H2. rewrite !flats_app. congruence. Qed.
Lemma fcons t a b : flats a = flats b -> flats (t :: a) = flats (t :: b).
Proof. intros H. change (t :: a) with ([t] ++ a). change (t :: b) with ([t] ++ b). apply fapp; auto. Qed.
Lemma fgroup d a b r s : flats a = flats b -> flats r = flats s -> flats (TGroup d a :: r) = flats (TGroup d b :: s).
Proof.
  intros H1 H2. change (TGroup d a :: r) with ([TGroup d a] ++ r). change (TGroup d b :: s) with ([TGroup d b] ++ s). apply fapp; [|exact H2].
  unfold flats. cbn [flat_map]. rewrite !app_nil_r. unfold flats in H1. destruct d; cbn [flat]; congruence.
Qed.
Lemma fname x s a b : flats [TIdent x] = flats s -> flats a = flats b -> flats (TIdent x :: a) = flats (s ++ b).
Proof. intros H1 H2. change (TIdent x :: a) with ([TIdent x] ++ a). apply fapp; assumption. Qed.
Lemma fflat_map {A B} (p : A -> list tt) (q : B -> list tt) l l' : Forall2 (fun x y => flats (q y) = flats (p x)) l l' -> flats (flat_map q l') = flats (flat_map p l).
Proof. induction 1 as [|x y l l' H _ IH]; [reflexivity|]. cbn [flat_map]. apply fapp; assumption. Qed.

Section Emit.
Context (O : oracles) (lookup : str -> option value) (reparse : kind -> list tt -> option (list tt)).
Context (P_node : forall k ts ts', reparse k ts = Some ts' -> flats ts' = flats ts).
Context (P_ident : forall ts x, parse_ident O ts = Some x -> flats ts = [TIdent x]).
Context (P_str : forall ts v p, parse_lit_str O ts = Some (v, p) -> flats ts = [TLit (LStr v p)]).
Context (Hkw : forall k, In k item_keywords -> lookup k = None).
Notation sub := (substituted O lookup).
(** Substitution does not care either. *)
Lemma sub_flats ts ts' : flats ts = flats ts' -> flats (sub ts) = flats (sub ts').
Proof.
  assert (G : forall ts, flats (sub (flats ts)) = flats (sub ts)).
  { clear. intros ts. assert (Hl : forall l, Forall (fun t => flats (sub (flat t)) = flats (sub [t])) l -> flats (sub (flats l)) = flats (sub l)).
    { induction 1 as [|t l Ht _ IH]; [reflexivity|]. change (t :: l) with ([t] ++ l). rewrite flats_app, !sub_app. apply fapp; [|exact IH].
      unfold flats at 2. cbn [flat_map]. rewrite app_nil_r. exact Ht. }
    apply Hl. apply Forall_forall. intros t _. induction t as [x|c j|l|d g IH] using tt_ind'; try reflexivity.
    apply Hl in IH. assert (E : flats (sub [TGroup d g]) = flats [TGroup d (sub g)]) by reflexivity. rewrite E.
    destruct d; cbn [flat].
    1-3: (fold (flats g); apply (fgroup _ (sub (flats g)) (sub g) [] []); [exact IH|reflexivity]).
    fold (flats g). rewrite IH. unfold flats at 2. cbn [flat_map flat]. rewrite app_nil_r. reflexivity. }
  intros H. rewrite <- (G ts), <- (G ts'), H. reflexivity.
Qed.

Lemma node_flat k ts ts' : visit_node O lookup reparse k ts = Ok ts' -> flats ts' = flats (sub ts).
Proof. intros H. apply substitutes in H. exact (P_node _ _ _ H). Qed.
Lemma name_flat x x' : visit_name O lookup x = Ok x' -> flats [TIdent x'] = flats (sub [TIdent x]).
Proof. intros H. apply substitutes in H. symmetry. exact (P_ident _ _ H). Qed.
Lemma abi_flat l v p : visit_abi O lookup l = Ok (v, p) -> flats [TLit (LStr v p)] = flats (sub [TLit (LStr (fst l) (snd l))]).
Proof. intros H. apply substitutes in H. symmetry. exact (P_str _ _ _ H). Qed.

Lemma parse_outer_flat l : forall l', parse_outer reparse (attrs_tokens l) = Some l' ->
  flats (attrs_tokens l') = flats (attrs_tokens l) /\ Forall (fun a => is_inner a = false) l /\ Forall (fun a => is_inner a = false) l'.
Proof.
  induction l as [|a l IH]; intros l' H; [injection H as <-; auto|].
  unfold attrs_tokens in H. cbn [flat_map] in H. unfold attr_tokens at 1 in H. destruct (is_inner a) eqn:Ei; [discriminate|].
  cbn [app parse_outer sym] in H. change (hd 0%N (txt "#")) with 35%N in H. cbn [N.eqb Pos.eqb] in H.
  destruct (reparse KMeta (meta a)) as [m|] eqn:Em; [|discriminate]. fold (attrs_tokens l) in H.
  destruct (parse_outer reparse (attrs_tokens l)) as [r|]; [|discriminate]. injection H as <-.
  destruct (IH r eq_refl) as (H1 & H2 & H3). split; [|split; constructor; auto].
  unfold attrs_tokens. cbn [flat_map]. fold (attrs_tokens r). fold (attrs_tokens l). apply fapp; [|exact H1].
  unfold attr_tokens. rewrite Ei. cbn [is_inner meta app]. apply fcons, fgroup; [exact (P_node _ _ _ Em)|reflexivity].
Qed.
Lemma outer_only l : Forall (fun a => is_inner a = false) l -> outer l = l /\ inner l = [].
Proof. induction 1 as [|a l Ha _ [IH1 IH2]]; [split; reflexivity|]. unfold outer, inner in *. cbn [filter]. rewrite Ha. cbn [negb]. split; congruence. Qed.
Lemma attrs_flat l l' : visit_attrs O lookup reparse l = Ok l' ->
  flats (attrs_tokens l') = flats (sub (attrs_tokens l)) /\ outer l = l /\ inner l = [] /\ outer l' = l' /\ inner l' = [].
Proof.
  intros H. apply substitutes in H. rewrite sub_attrs in *. apply parse_outer_flat in H as (H1 & H2 & H3).
  rewrite Forall_map in H2. destruct (outer_only _ H2), (outer_only _ H3). auto.
Qed.
Lemma field_flat f f' : visit_field O lookup reparse f = Ok f' -> flats (field_tokens f') = flats (sub (field_tokens f)).
Proof.
  unfold visit_field. intros H. run H. injection H as <-. unfold field_tokens. cbn [f_attrs f_vis f_ident f_ty].
  rewrite !sub_app. apply attrs_flat in E as (E & _). apply node_flat in E0. apply node_flat in E2.
  apply fapp; [exact E|]. apply fapp; [exact E0|]. apply fapp; [|exact E2].
  destruct (f_ident f) as [x|]; cbn [visit_opt] in E1; [|injection E1 as <-; reflexivity].
  run E1. injection E1 as <-. rewrite sub_ident. apply name_flat in E3. apply fname; [exact E3|reflexivity].
Qed.
Lemma punctuated_flat {A} (print : A -> list tt) s t l l' :
  Forall2 (fun x y => flats (print y) = flats (sub (print x))) l l' ->
  flats (punctuated print (sym s) t l') = flats (sub (punctuated print (sym s) t l)).
Proof.
  induction 1 as [|x y l l' H Hl IH]; [reflexivity|]. destruct Hl as [|x2 y2 l l' H2 Hl].
  - cbn [punctuated]. rewrite sub_app. apply fapp; [exact H|]. destruct t; reflexivity.
  - cbn [punctuated] in IH |- *. rewrite sub_app, sub_sym. apply fapp; [exact H|]. apply fcons. exact IH.
Qed.
Lemma mapM_fields_flat l l' : mapM (visit_field O lookup reparse) l = Ok l' ->
  Forall2 (fun x y => flats (field_tokens y) = flats (sub (field_tokens x))) l l'.
Proof. intros H. apply mapM_ok in H. eapply Forall2_weaken; [|exact H]. intros x y. apply field_flat. Qed.
Lemma fields_flat f f' : visit_fields O lookup reparse f = Ok f' -> flats (fields_tokens f') = flats (sub (fields_tokens f)) /\
  match f, f' with FNamed _ _, FNamed _ _ | FUnnamed _ _, FUnnamed _ _ | FUnit, FUnit => True | _, _ => False end.
Proof.
  destruct f as [l t|l t|]; cbn [visit_fields]; intros H; run H; injection H as <-; (split; [|exact I]); cbn [fields_tokens]; [| |reflexivity];
    rewrite sub_group; (apply fgroup; [|reflexivity]); apply (punctuated_flat field_tokens), mapM_fields_flat; exact E.
Qed.
Lemma variant_flat v v' : visit_variant O lookup reparse v = Ok v' -> flats (variant_tokens v') = flats (sub (variant_tokens v)).
Proof.
  unfold visit_variant. intros H. run H. injection H as <-. unfold variant_tokens. cbn [v_attrs v_ident v_fields v_disc].
  rewrite sub_app, sub_ident, sub_app. apply attrs_flat in E as (E & _). apply name_flat in E0. apply fields_flat in E1 as [E1 _].
  apply fapp; [exact E|]. apply fname; [exact E0|]. apply fapp; [exact E1|].
  destruct (v_disc v) as [e|]; cbn [visit_opt] in E2; run E2; injection E2 as <-; [|reflexivity].
  rewrite sub_sym. apply node_flat in E3. apply fcons. exact E3.
Qed.
Lemma generics_flat g g' : visit_generics O lookup reparse g = Ok g' -> flats (g_params g') = flats (sub (g_params g)) /\ g_where g' = [].
Proof. unfold visit_generics. intros H. run H. injection H as <-. cbn. apply node_flat in E. auto. Qed.
Lemma group_flat_inv a b : flats [TGroup Brace a] = flats [TGroup Brace b] -> flats a = flats b.
Proof. unfold flats at 1 2. cbn. rewrite ?app_nil_r. intros H. injection H as H. exact H. Qed.
Lemma other_stmt_flat ts ts' : visit_other_stmt O lookup reparse ts = Ok ts' -> flats ts' = flats (sub ts).
Proof.
  unfold visit_other_stmt. destruct (reparse KBlock [TGroup Brace ts]) as [b|] eqn:Eb; [|discriminate]. apply P_node in Eb.
  intros H. run H. apply node_flat in E. destruct r as [|[| | |[] inside] [|]]; try discriminate H. injection H as ->.
  apply (sub_flats b [TGroup Brace ts]) in Eb. rewrite Eb in E. exact (group_flat_inv _ _ E).
Qed.
Lemma children_flat {A} (visit : A -> res A) (print : A -> list tt) (drop : A -> A) l l' :
  Forall (fun x => forall y, visit x = Ok y -> flats (print y) = flats (sub (print (drop x)))) l ->
  mapM visit l = Ok l' -> flats (flat_map print l') = flats (sub (flat_map print (map drop l))).
Proof.
  intros HF H. apply mapM_ok in H. rewrite flat_map_map, sub_flat_map. apply (fflat_map (fun x => sub (print (drop x)))).
  induction H as [|x y l l' Hx H IH]; [constructor|]. inversion HF; subst. constructor; auto.
Qed.

Definition flat_item (i : item) : Prop := forall i', visit_item O lookup reparse i = Ok i' -> flats (item_tokens i') = flats (sub (item_tokens (drop_where i))).
Definition flat_stmt (s : stmt) : Prop := forall s', visit_stmt O lookup reparse s = Ok s' -> flats (stmt_tokens s') = flats (sub (stmt_tokens (drop_where_stmt s))).
Definition flat_trait_item (i : trait_item) : Prop :=
  forall i', visit_trait_item O lookup reparse i = Ok i' -> flats (trait_item_tokens i') = flats (sub (trait_item_tokens (drop_where_trait_item i))).
Definition flat_impl_item (i : impl_item) : Prop :=
  forall i', visit_impl_item O lookup reparse i = Ok i' -> flats (impl_item_tokens i') = flats (sub (impl_item_tokens (drop_where_impl_item i))).

Ltac kwin := cbn; tauto.
Ltac attrs_step E := let H := fresh "HA" in
  let H1 := fresh in let H2 := fresh in let H3 := fresh in let H4 := fresh in
  destruct (attrs_flat _ _ E) as (H & H1 & H2 & H3 & H4); rewrite ?H1, ?H2, ?H3, ?H4; clear H1 H2 H3 H4.
Ltac attr := apply fapp; [assumption|].
Ltac node E := apply fapp; [exact (node_flat _ _ _ E)|].
Ltac name E := apply fname; [exact (name_flat _ _ E)|].
Ltac body IH E drop := apply fgroup; [|reflexivity]; exact (children_flat _ _ drop _ _ IH E).

Lemma item_flat i : flat_item i.
Proof.
  apply (item_ind' flat_item flat_stmt flat_trait_item flat_impl_item); unfold flat_item, flat_stmt, flat_trait_item, flat_impl_item; clear i.
  - (* fn *) intros a v s b IH i' H. cbn [visit_item] in H. run H. injection H as <-. cbn [item_tokens drop_where]. attrs_step E.
    cbn [attrs_tokens flat_map app]. rewrite !sub_app, sub_group, sub_nil. attr. node E0. node E1. body IH E2 drop_where_stmt.
  - (* struct *) intros a v x g f i' H. cbn [visit_item] in H. run H. injection H as <-. cbn [item_tokens drop_where]. attrs_step E.
    rewrite !sub_app. cbn [app]. rewrite (sub_kw _ _ Hkw) by kwin. rewrite sub_ident, sub_nil, app_nil_r. attr. node E0. apply fcons. name E1.
    apply generics_flat in E2 as [Hg ->]. cbn [app g_params g_where no_where_generics]. apply fapp; [exact Hg|].
    apply fields_flat in E3 as [E3 Hf]. destruct f as [l t|l t|], r3 as [l' t'|l' t'|]; try contradiction; cbn [app]; rewrite ?sub_app; [exact E3| |reflexivity].
    apply fapp; [exact E3|reflexivity].
  - (* enum *) intros a v x g l t i' H. cbn [visit_item] in H. run H. injection H as <-. cbn [item_tokens drop_where]. attrs_step E.
    rewrite !sub_app. cbn [app]. rewrite (sub_kw _ _ Hkw) by kwin. rewrite sub_ident, sub_nil, app_nil_r. attr. node E0. apply fcons. name E1.
    apply generics_flat in E2 as [Hg ->]. cbn [app g_params g_where no_where_generics]. rewrite sub_group, sub_nil. cbn [app]. apply fapp; [exact Hg|].
    apply fgroup; [|reflexivity]. apply (punctuated_flat variant_tokens). apply mapM_ok in E3. eapply Forall2_weaken; [|exact E3]. intros p q. apply variant_flat.
  - (* union *) intros a v x g l t i' H. cbn [visit_item] in H. run H. injection H as <-. cbn [item_tokens drop_where]. attrs_step E.
    rewrite !sub_app. cbn [app]. rewrite (sub_kw _ _ Hkw) by kwin. rewrite sub_ident, sub_nil, app_nil_r. attr. node E0. apply fcons. name E1.
    apply generics_flat in E2 as [Hg ->]. cbn [app g_params g_where no_where_generics]. rewrite sub_group, sub_nil. cbn [app]. apply fapp; [exact Hg|].
    apply fgroup; [|reflexivity]. apply (punctuated_flat field_tokens), mapM_fields_flat. exact E3.
  - (* trait *) intros a v u au x g s t l IH i' H. cbn [visit_item] in H. run H. injection H as <-. cbn [item_tokens drop_where]. attrs_step E.
    rewrite !sub_app. rewrite !(sub_kw_if _ _ Hkw) by kwin. cbn [app]. rewrite (sub_kw _ _ Hkw) by kwin. rewrite sub_ident, sub_nil, app_nil_r.
    attr. node E0. apply fapp; [reflexivity|]. apply fapp; [reflexivity|]. apply fcons. name E1.
    apply generics_flat in E2 as [Hg ->]. cbn [app g_params g_where no_where_generics attrs_tokens flat_map]. rewrite sub_group, ?sub_nil. cbn [app].
    apply fapp; [exact Hg|].
    assert (Hs : flats (match r3 with [] => [] | _ => sym ":" :: punctuated (fun b => b) (sym "+") t r3 end) =
                 flats (sub (match s with [] => [] | _ => sym ":" :: punctuated (fun b => b) (sym "+") t s end))).
    { apply mapM_ok in E3. assert (E3' : Forall2 (fun x y : list tt => flats y = flats (sub x)) s r3) by (eapply Forall2_weaken; [|exact E3]; intros p q; apply node_flat).
      pose proof (punctuated_flat (fun b => b) "+" t _ _ E3') as Hp. destruct E3'; [reflexivity|]. rewrite sub_sym. apply fcons. exact Hp. }
    apply fapp; [exact Hs|]. body IH E4 drop_where_trait_item.
  - (* impl *) intros a d u g tr ty l IH i' H. cbn [visit_item] in H. run H. injection H as <-. cbn [item_tokens drop_where]. attrs_step E.
    rewrite !sub_app. rewrite !(sub_kw_if _ _ Hkw) by kwin. rewrite (sub_kw _ _ Hkw) by kwin. rewrite sub_nil. apply generics_flat in E0 as [Hg ->].
    cbn [app g_params g_where no_where_generics attrs_tokens flat_map]. rewrite sub_group, !sub_nil. cbn [app].
    attr. apply fapp; [reflexivity|]. apply fapp; [reflexivity|]. apply fcons. apply fapp; [exact Hg|]. apply fapp.
    + destruct tr as [[bang p]|]; cbn [visit_opt fst snd] in E1; run E1; injection E1 as <-; [|reflexivity].
      run E0. injection E0 as <-. rewrite !sub_app, (sub_kw _ _ Hkw), sub_nil by kwin. apply fapp; [destruct bang; reflexivity|]. node E1. reflexivity.
    + node E2. body IH E3 drop_where_impl_item.
  - (* mod *) intros a v u x l IH i' H. cbn [visit_item] in H. run H. injection H as <-. cbn [item_tokens drop_where]. attrs_step E.
    rewrite !sub_app. rewrite !(sub_kw_if _ _ Hkw) by kwin. cbn [app]. rewrite (sub_kw _ _ Hkw) by kwin. rewrite sub_ident, sub_nil, app_nil_r.
    attr. node E0. apply fapp; [reflexivity|]. apply fcons. name E1.
    run E2. injection E2 as <-. cbn [app attrs_tokens flat_map]. rewrite sub_group, !sub_nil. body IH E3 drop_where.
  - (* mod; *) intros a v u x i' H. cbn [visit_item] in H. run H. injection H as <-. cbn [item_tokens drop_where]. attrs_step E.
    rewrite !sub_app. rewrite !(sub_kw_if _ _ Hkw) by kwin. cbn [app]. rewrite (sub_kw _ _ Hkw) by kwin. rewrite sub_ident, sub_nil, app_nil_r.
    attr. node E0. apply fapp; [reflexivity|]. apply fcons. name E1. reflexivity.
  - (* foreign *) intros a u abi l i' H. cbn [visit_item] in H. run H. injection H as <-. cbn [item_tokens drop_where]. attrs_step E.
    rewrite !sub_app. rewrite !(sub_kw_if _ _ Hkw) by kwin. rewrite (sub_kw _ _ Hkw) by kwin. rewrite sub_nil. cbn [app attrs_tokens flat_map]. rewrite sub_group, sub_nil, sub_concat.
    attr. apply fapp; [reflexivity|]. apply fcons. apply fapp.
    + destruct abi as [p|]; cbn [visit_opt] in E0; run E0; injection E0 as <-; [|reflexivity]. destruct r2 as [v p0]. apply abi_flat in E2. rewrite E2. destruct p; reflexivity.
    + apply fgroup; [|reflexivity]. apply mapM_ok in E1. clear -E1 P_node. induction E1 as [|x y l l' Hx _ IH]; [reflexivity|]. cbn [List.concat map].
      apply fapp; [exact (node_flat _ _ _ Hx)|exact IH].
  - (* other *) intros ts i' H. cbn [visit_item] in H. run H. injection H as <-. exact (node_flat _ _ _ E).
  - (* statement item *) intros i IH s' H. cbn [drop_where_stmt stmt_tokens].
    destruct i; cbn [visit_stmt] in H; run H; injection H as <-; cbn [stmt_tokens]; try (apply IH; reflexivity || assumption).
    cbn [drop_where item_tokens]. apply other_stmt_flat. exact E.
  - intros ts s' H. cbn [visit_stmt] in H. run H. injection H as <-. apply other_stmt_flat. exact E.
  - (* trait fn *) intros a s b IH i' H. cbn [visit_trait_item] in H. run H. injection H as <-. run E1. injection E1 as <-. cbn [trait_item_tokens drop_where_trait_item]. attrs_step E.
    cbn [attrs_tokens flat_map app]. rewrite !sub_app, sub_group, sub_nil. attr. node E0. body IH E2 drop_where_stmt.
  - intros a s i' H. cbn [visit_trait_item] in H. run H. injection H as <-. cbn [trait_item_tokens drop_where_trait_item]. attrs_step E.
    rewrite !sub_app. attr. node E0. reflexivity.
  - intros k ts i' H. cbn [visit_trait_item] in H. run H. injection H as <-. exact (node_flat _ _ _ E).
  - (* impl fn *) intros a v d s b IH i' H. cbn [visit_impl_item] in H. run H. injection H as <-. cbn [impl_item_tokens drop_where_impl_item]. attrs_step E.
    cbn [attrs_tokens flat_map app]. rewrite !sub_app, (sub_kw_if _ _ Hkw), sub_group, sub_nil by kwin. attr. node E0. apply fapp; [reflexivity|]. node E1. body IH E2 drop_where_stmt.
  - intros k ts i' H. cbn [visit_impl_item] in H. run H. injection H as <-. exact (node_flat _ _ _ E).
Qed.
Lemma stmt_flat s : flat_stmt s.
Proof.
  destruct s as [i|ts]; intros s' H.
  - pose proof (item_flat i) as IH. unfold flat_item in IH. cbn [drop_where_stmt stmt_tokens].
    destruct i; cbn [visit_stmt] in H; run H; injection H as <-; cbn [stmt_tokens]; try (apply IH; assumption).
    cbn [drop_where item_tokens]. apply other_stmt_flat. exact E.
  - cbn [visit_stmt] in H. run H. injection H as <-. apply other_stmt_flat. exact E.
Qed.
Lemma block_flat l l' : visit_block O lookup reparse l = Ok l' -> flats (block_tokens l') = flats (sub (block_tokens (map drop_where_stmt l))).
Proof.
  intros H. apply (children_flat (visit_stmt O lookup reparse)); [|exact H]. apply Forall_forall. intros s _. apply stmt_flat.
Qed.
End Emit.
