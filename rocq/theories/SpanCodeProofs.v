(** The spans of the generated code, token by token. *)
From Coq Require Import String.
From Verif Require Import Base BaseFacts Token Types Values Ast Env Eval FormatString StreamWalker SubstituteIdents SpecSubst WalkerProofs SubstFacts Item AliasSubstitution SpecItem Deprecation Interpreter Parse Macro
  Failures SpanTokens SpanWalker SpanValues SpanEval SpecSpans SpanProofs SpecSpanEval SpanEvalProofs SpanItem SpanVisitor SpecSpanItem SpanItemProofs
  SpanDeprecation SpanParse SpanMacro SpecSpanCode.
Open Scope list_scope.

Notation C := (map collapsed).
Lemma smapM_ok {A B} (f : A -> sres B) l : forall l', smapM f l = SOk l' -> Forall2 (fun x y => f x = SOk y) l l'.
Proof.
  induction l as [|x l IH]; intros l' H; cbn in H; [injection H as <-; constructor|].
  destruct (f x) as [y| |] eqn:E; try discriminate. cbn in H. destruct (smapM f l) as [r| |] eqn:Er; try discriminate. injection H as <-. constructor; auto.
Qed.
Lemma C_app a b : C (a ++ b) = C a ++ C b.
Proof. apply map_app. Qed.
Lemma C_cons t a : C (t :: a) = collapsed t :: C a.
Proof. reflexivity. Qed.
Lemma collapsed_group d s ts : collapsed (sgroup d s ts) = sgroup d s (C ts).
Proof. reflexivity. Qed.
Lemma C_twice ts : C (C ts) = C ts.
Proof.
  rewrite map_map. apply map_ext. intros t; induction t as [| | |d l s IH] using stt_ind'; try reflexivity. cbn. f_equal. rewrite map_map.
  induction IH as [|x l H _ IH]; [reflexivity|]. cbn. rewrite H, IH. reflexivity.
Qed.

Ltac srun H := repeat match type of H with
  | sbind ?x _ = SOk _ => let E := fresh "E" in let r := fresh "r" in destruct x as [r| |] eqn:E; cbn [sbind] in H; [|discriminate H|discriminate H]
  end.

Section Emit.
Context (O : oracles) (SO : soracles) (lookup : str -> option value) (salias : str -> option (list stt)) (SN : ssyntax_nodes).
Context (F : sfaithful SO SN) (Hkw : forall k, In k item_keywords -> salias k = None).
Notation sub := (ssubstituted O lookup salias).

Lemma sub_app a b : sub (a ++ b) = sub a ++ sub b.
Proof. apply flat_map_app. Qed.
Lemma sub_nil : sub [] = [].
Proof. reflexivity. Qed.
Lemma sub_cons t r : sub (t :: r) = sub [t] ++ sub r.
Proof. apply (sub_app [t] r). Qed.
Lemma sub_sym x s r : sub (ssym x s :: r) = ssym x s :: sub r.
Proof. reflexivity. Qed.
Lemma sub_group d s g r : sub (sgroup d s g :: r) = sgroup d s (sub g) :: sub r.
Proof. reflexivity. Qed.
Lemma sub_kw x s r : In (txt x) item_keywords -> sub (skw x s :: r) = skw x s :: sub r.
Proof. intros H. unfold skw. rewrite sub_cons. unfold ssubstituted, sreplaced_stream. cbn. rewrite (Hkw _ H). reflexivity. Qed.
Lemma sub_kw_if b x : In (txt x) item_keywords -> sub (skw_if b x) = skw_if b x.
Proof. intros H. destruct b; [apply (sub_kw x _ [] H)|reflexivity]. Qed.
Lemma sub_flat_map {A} (f : A -> list stt) l : sub (flat_map f l) = flat_map (fun x => sub (f x)) l.
Proof. induction l as [|x l IH]; [reflexivity|]. cbn [flat_map]. rewrite sub_app, IH. reflexivity. Qed.
Lemma sub_concat l : sub (List.concat l) = List.concat (map sub l).
Proof. induction l as [|x l IH]; [reflexivity|]. cbn [List.concat map]. rewrite sub_app, IH. reflexivity. Qed.
(** The spans of delimiters play no part. *)
Lemma sub_collapsed ts : sub (C ts) = sub ts.
Proof.
  unfold ssubstituted, sreplaced_stream. rewrite flat_map_concat_map, map_map, <- flat_map_concat_map. apply flat_map_ext.
  intros a; induction a as [| | |d l s IH] using stt_ind'; try reflexivity. cbn [collapsed sreplaced ds_entire single]. do 2 f_equal.
  induction IH as [|x l H _ IH]; [reflexivity|]. cbn [map flat_map]. rewrite H, IH. reflexivity.
Qed.
Lemma sub_alike a b : alike a b -> sub a = sub b.
Proof. intros H. rewrite <- (sub_collapsed a), <- (sub_collapsed b), H. reflexivity. Qed.

Lemma node_emit k ts ts' : svisit_node O lookup salias SN k ts = SOk ts' -> C ts' = C (sub ts).
Proof. intros H. apply span_success in H as [H _]. exact (sfaithful_node _ _ F _ _ _ H). Qed.
Lemma name_emit x x' : svisit_name O SO lookup salias x = SOk x' -> pname_tokens x' = sub (pname_tokens x).
Proof. intros H. apply span_success in H as [H _]. symmetry. exact (sfaithful_ident _ _ F _ _ H). Qed.
Lemma abi_emit l l' : svisit_abi O SO lookup salias l = SOk l' ->
  [SLit (LStr (fst (fst l')) (snd (fst l'))) (snd l')] = sub [SLit (LStr (fst (fst l)) (snd (fst l))) (snd l)].
Proof. intros H. apply span_success in H as [H _]. symmetry. exact (sfaithful_str _ _ F _ _ H). Qed.

Definition sub_attr (a : pattr) : pattr :=
  {| pa_pound := pa_pound a; pa_inner := pa_inner a; pa_bracket := pa_bracket a; pa_meta := sub (pa_meta a) |}.
Lemma sub_attrs l : sub (pattrs_tokens l) = pattrs_tokens (map sub_attr l).
Proof.
  unfold pattrs_tokens. rewrite sub_flat_map. induction l as [|a l IH]; [reflexivity|]. cbn [flat_map map]. rewrite IH. f_equal.
  unfold pattr_tokens, sub_attr. destruct (pa_inner a); reflexivity.
Qed.
Lemma sparse_outer_attrs l : forall l', sparse_outer SN (pattrs_tokens l) = Some l' ->
  C (pattrs_tokens l') = C (pattrs_tokens l) /\ pouter l = l /\ pinner l = [] /\ pouter l' = l' /\ pinner l' = [].
Proof.
  induction l as [|a l IH]; intros l' H; [injection H as <-; auto|].
  unfold pattrs_tokens in H. cbn [flat_map] in H. unfold pattr_tokens at 1 in H. destruct (pa_inner a) eqn:Ei; [discriminate|].
  cbn [app sparse_outer ssym sgroup] in H. change (hd 0%N (txt "#")) with 35%N in H. cbn [N.eqb Pos.eqb] in H.
  destruct (sreparse SN KMeta (pa_meta a)) as [m|] eqn:Em; [|discriminate]. fold (pattrs_tokens l) in H.
  destruct (sparse_outer SN (pattrs_tokens l)) as [r|]; [|discriminate]. injection H as <-.
  destruct (IH r eq_refl) as (H1 & H2 & H3 & H4 & H5). apply (sfaithful_node _ _ F) in Em.
  unfold pouter, pinner, pattrs_tokens in *. cbn [filter flat_map]. cbn [pa_inner]. rewrite Ei. cbn [is_some negb]. rewrite H2, H3, H4, H5. repeat split.
  rewrite !C_app, H1. f_equal. unfold pattr_tokens. rewrite Ei. cbn [pa_inner pa_pound pa_bracket pa_meta app map collapsed sgroup]. rewrite Em. reflexivity.
Qed.
Lemma attrs_emit l l' : svisit_attrs O lookup salias SN l = SOk l' ->
  C (pattrs_tokens l') = C (sub (pattrs_tokens l)) /\ pouter l = l /\ pinner l = [] /\ pouter l' = l' /\ pinner l' = [].
Proof.
  intros H. apply span_success in H as [H _]. rewrite sub_attrs in *. apply sparse_outer_attrs in H as (H1 & H2 & H3 & H4 & H5).
  repeat split; try assumption.
  - clear -H2. unfold pouter in *. induction l as [|a l IH]; [reflexivity|]. cbn [map filter sub_attr pa_inner] in *. destruct (is_some (pa_inner a)); cbn [negb] in *.
    + exfalso. assert (X : forall m, List.length (filter (fun a => negb (is_some (pa_inner a))) m) <= List.length m) by (clear; induction m as [|a m IH]; cbn; [auto|]; destruct (negb _); cbn; auto using le_n_S).
      specialize (X (map sub_attr l)). rewrite H2 in X. cbn in X. exact (PeanoNat.Nat.nle_succ_diag_l _ X).
    + injection H2 as H2. f_equal. exact (IH H2).
  - clear -H3. unfold pinner in *. induction l as [|a l IH]; [reflexivity|]. cbn [map filter sub_attr pa_inner] in *. destruct (is_some (pa_inner a)); [discriminate|]. exact (IH H3).
Qed.
Lemma attrs_emit_tokens l l' : svisit_attrs O lookup salias SN l = SOk l' -> C (pattrs_tokens l') = C (sub (pattrs_tokens l)).
Proof. intros H. apply attrs_emit in H as (H & _). exact H. Qed.

Lemma field_emit f f' : svisit_field O SO lookup salias SN f = SOk f' -> C (pfield_tokens f') = C (sub (pfield_tokens f)).
Proof.
  unfold svisit_field. intros H. srun H. injection H as <-. unfold pfield_tokens. cbn [pf_attrs pf_vis pf_ident pf_ty].
  rewrite !sub_app, !C_app. rewrite (attrs_emit_tokens _ _ E), (node_emit _ _ _ E0), (node_emit _ _ _ E2). do 2 f_equal. f_equal.
  destruct (pf_ident f) as [[x c]|]; cbn [svisit_opt] in E1; [|injection E1 as <-; reflexivity].
  srun E1. injection E1 as <-. unfold svisit_field_name in E3. cbn [fst snd] in E3. srun E3. injection E3 as <-. apply name_emit in E1.
  destruct x as [x s]. match type of E1 with pname_tokens ?q = _ => destruct q as [y s'] end. unfold pname_tokens in E1. cbn [fst snd] in E1. rewrite sub_cons, <- E1. reflexivity.
Qed.
Lemma punctuated_emit {A} (print : A -> list stt) c t l l' : Forall2 (fun x y => C (print y) = C (sub (print x))) l l' ->
  forall ss, C (spunctuated print c ss t l') = C (sub (spunctuated print c ss t l)).
Proof.
  induction 1 as [|x y l l' H Hl IH]; intros ss; [reflexivity|]. destruct Hl as [|x2 y2 l l' H2 Hl].
  - cbn [spunctuated]. rewrite sub_app, !C_app, H. destruct t; reflexivity.
  - specialize (IH (tl ss)). cbn [spunctuated] in IH |- *. rewrite sub_app, sub_sym, !C_app, !C_cons, H, IH. reflexivity.
Qed.
Lemma Forall2_weaken {A B} (P Q : A -> B -> Prop) l l' : (forall x y, P x y -> Q x y) -> Forall2 P l l' -> Forall2 Q l l'.
Proof. intros H. induction 1; constructor; auto. Qed.
Lemma smapM_fields l l' : smapM (svisit_field O SO lookup salias SN) l = SOk l' ->
  Forall2 (fun x y => C (pfield_tokens y) = C (sub (pfield_tokens x))) l l'.
Proof. intros H. apply smapM_ok in H. eapply Forall2_weaken; [|exact H]. intros x y. apply field_emit. Qed.
Lemma fields_emit f f' : svisit_fields O SO lookup salias SN f = SOk f' -> C (pfields_tokens f') = C (sub (pfields_tokens f)) /\
  match f, f' with PNamed _ _ _, PNamed _ _ _ | PUnnamed _ _ _, PUnnamed _ _ _ | PUnit, PUnit => True | _, _ => False end.
Proof.
  destruct f as [l t s|l t s|]; cbn [svisit_fields]; intros H; srun H; injection H as <-; (split; [|exact I]); cbn [pfields_tokens]; [| |reflexivity];
    rewrite sub_group, sub_nil; cbn [map]; rewrite !collapsed_group; unfold ppunctuated;
    rewrite (punctuated_emit pfield_tokens "," (sep_trailing t) _ _ (smapM_fields _ _ E)); reflexivity.
Qed.
Lemma variant_emit v v' : svisit_variant O SO lookup salias SN v = SOk v' -> C (pvariant_tokens v') = C (sub (pvariant_tokens v)).
Proof.
  unfold svisit_variant. intros H. srun H. injection H as <-. unfold pvariant_tokens. cbn [pv_attrs pv_ident pv_fields pv_disc].
  rewrite !sub_app, !C_app. rewrite (attrs_emit_tokens _ _ E), <- (name_emit _ _ E0), (proj1 (fields_emit _ _ E1)). do 3 f_equal.
  destruct (pv_disc v) as [[s e]|]; cbn [svisit_opt] in E2; srun E2; injection E2 as <-; [|reflexivity].
  cbn [fst snd] in E3. srun E3. injection E3 as <-. rewrite sub_sym, !C_cons. rewrite (node_emit _ _ _ E2). reflexivity.
Qed.
Lemma generics_emit g g' : svisit_generics O lookup salias SN g = SOk g' -> C (pg_params g') = C (sub (pg_params g)) /\ pg_where g' = [].
Proof. unfold svisit_generics. intros H. srun H. injection H as <-. cbn. apply node_emit in E. auto. Qed.
Lemma braces_alike b s ts : C b = [sgroup Brace s ts] -> exists ts' s', b = [SGroup Brace ts' s'] /\ C ts' = ts.
Proof.
  destruct b as [|t [|]]; try discriminate. destruct t as [| | |d ts' s']; try discriminate. cbn. intros H. injection H as -> H _.
  eauto.
Qed.
Lemma other_stmt_emit ts ts' : svisit_other_stmt O lookup salias SN ts = SOk ts' -> C ts' = C (sub ts).
Proof.
  unfold svisit_other_stmt. destruct (sreparse SN KBlock [sgroup Brace call_site ts]) as [b|] eqn:Eb; [|discriminate].
  apply (sfaithful_node _ _ F) in Eb. intros H. srun H. apply node_emit in E. rewrite (sub_alike _ _ Eb), sub_group, sub_nil in E. cbn [map] in E. rewrite collapsed_group in E.
  apply braces_alike in E as (ts0 & s' & -> & E). injection H as <-. exact E.
Qed.
Lemma children_emit {A} (visit : A -> sres A) (print : A -> list stt) (drop : A -> A) l l' :
  Forall (fun x => forall y, visit x = SOk y -> C (print y) = C (sub (print (drop x)))) l ->
  smapM visit l = SOk l' -> C (flat_map print l') = C (sub (flat_map print (map drop l))).
Proof.
  intros HF H. apply smapM_ok in H. induction H as [|x y l l' Hx H IH]; [reflexivity|]. inversion HF; subst. cbn [map flat_map]. rewrite sub_app, !C_app.
  f_equal; auto.
Qed.

Definition emits_item (i : pitem) : Prop := forall i', svisit_item O SO lookup salias SN i = SOk i' -> C (pitem_tokens i') = C (sub (pitem_tokens (pdrop_where i))).
Definition emits_stmt (s : pstmt) : Prop := forall s', svisit_stmt O SO lookup salias SN s = SOk s' -> C (pstmt_tokens s') = C (sub (pstmt_tokens (pdrop_where_stmt s))).
Definition emits_trait_item (i : ptrait_item) : Prop :=
  forall i', svisit_trait_item O SO lookup salias SN i = SOk i' -> C (ptrait_item_tokens i') = C (sub (ptrait_item_tokens (pdrop_where_trait_item i))).
Definition emits_impl_item (i : pimpl_item) : Prop :=
  forall i', svisit_impl_item O SO lookup salias SN i = SOk i' -> C (pimpl_item_tokens i') = C (sub (pimpl_item_tokens (pdrop_where_impl_item i))).

Ltac kwin := cbn; tauto.
Ltac attrs_step E := let H := fresh "A" in pose proof (attrs_emit_tokens _ _ E) as H;
  let H1 := fresh in let H2 := fresh in let H3 := fresh in let H4 := fresh in
  destruct (attrs_emit _ _ E) as (_ & H1 & H2 & H3 & H4); rewrite ?H1, ?H2, ?H3, ?H4.
Lemma app_cons {A} (x : A) l : x :: l = [x] ++ l.
Proof. reflexivity. Qed.
(** Both sides in pieces. *)
Ltac pieces := repeat first [rewrite sub_app | rewrite sub_sym | rewrite sub_group | rewrite sub_nil | rewrite sub_kw by kwin | rewrite sub_kw_if by kwin
  | rewrite C_app | rewrite C_cons | rewrite collapsed_group].

Lemma item_emit i : emits_item i.
Proof.
  apply (pitem_ind' emits_item emits_stmt emits_trait_item emits_impl_item); unfold emits_item, emits_stmt, emits_trait_item, emits_impl_item; clear i.
  - (* fn *) intros a v s g b IH i' H. cbn [svisit_item] in H. srun H. injection H as <-. cbn [pitem_tokens pdrop_where]. attrs_step E.
    cbn [pattrs_tokens flat_map app]. pieces. rewrite A, (node_emit _ _ _ E0), (node_emit _ _ _ E1), (children_emit _ _ pdrop_where_stmt _ _ IH E2). reflexivity.
  - (* struct *) intros a v k x g f s i' H. cbn [svisit_item] in H. srun H. injection H as <-. cbn [pitem_tokens pdrop_where]. attrs_step E.
    pieces. rewrite A, (node_emit _ _ _ E0), <- (name_emit _ _ E1). destruct (generics_emit _ _ E2) as [-> ->]. cbn [app pg_params pg_where pno_where_generics].
    do 2 f_equal. f_equal. f_equal. f_equal.
    destruct (fields_emit _ _ E3) as [E3' Hf]. destruct f as [l t s'|l t s'|], r3 as [l' t' s''|l' t' s''|]; try contradiction; pieces; rewrite ?E3'; reflexivity.
  - (* enum *) intros a v k x g s l t i' H. cbn [svisit_item] in H. srun H. injection H as <-. cbn [pitem_tokens pdrop_where]. attrs_step E.
    cbn [pg_params pg_where pno_where_generics]. pieces. rewrite A, (node_emit _ _ _ E0), <- (name_emit _ _ E1). destruct (generics_emit _ _ E2) as [-> ->].
    unfold ppunctuated. rewrite (punctuated_emit pvariant_tokens "," (sep_trailing t) l r3); [reflexivity|]. apply smapM_ok in E3. eapply Forall2_weaken; [|exact E3]. intros p q. apply variant_emit.
  - (* union *) intros a v k x g s l t i' H. cbn [svisit_item] in H. srun H. injection H as <-. cbn [pitem_tokens pdrop_where]. attrs_step E.
    cbn [pg_params pg_where pno_where_generics]. pieces. rewrite A, (node_emit _ _ _ E0), <- (name_emit _ _ E1). destruct (generics_emit _ _ E2) as [-> ->].
    unfold ppunctuated. rewrite (punctuated_emit pfield_tokens "," (sep_trailing t) l r3); [reflexivity|]. apply smapM_fields. exact E3.
  - (* trait *) intros a v u au k x g c s t b l IH i' H. cbn [svisit_item] in H. srun H. injection H as <-. cbn [pitem_tokens pdrop_where]. attrs_step E.
    cbn [pg_params pg_where pno_where_generics pattrs_tokens flat_map app]. pieces. rewrite A, (node_emit _ _ _ E0), <- (name_emit _ _ E1). destruct (generics_emit _ _ E2) as [-> ->].
    rewrite (children_emit _ _ pdrop_where_trait_item _ _ IH E4).
    assert (Hs : C (match r3 with [] => [] | _ => ssym ":" c :: ppunctuated (fun b => b) "+" t r3 end) =
                 C (sub (match s with [] => [] | _ => ssym ":" c :: ppunctuated (fun b => b) "+" t s end))).
    { apply smapM_ok in E3. assert (E3' : Forall2 (fun x y : list stt => C y = C (sub x)) s r3) by (eapply Forall2_weaken; [|exact E3]; intros p q; apply node_emit).
      pose proof (punctuated_emit (fun b => b) "+" (sep_trailing t) _ _ E3' (sep_spans t)) as Hp. unfold ppunctuated. destruct E3'; [reflexivity|]. rewrite sub_sym, !C_cons, Hp. reflexivity. }
    rewrite Hs. reflexivity.
  - (* impl *) intros a d u k g tr ty s l IH i' H. cbn [svisit_item] in H. srun H. injection H as <-. cbn [pitem_tokens pdrop_where]. attrs_step E.
    cbn [pg_params pg_where pno_where_generics pattrs_tokens flat_map app]. pieces. rewrite A. destruct (generics_emit _ _ E0) as [-> ->].
    rewrite (node_emit _ _ _ E2), (children_emit _ _ pdrop_where_impl_item _ _ IH E3). do 5 f_equal. f_equal.
    destruct tr as [[[bang p] fo]|]; cbn [svisit_opt fst snd] in E1; srun E1; injection E1 as <-; [|reflexivity].
    srun E4. injection E4 as <-. pieces. rewrite (node_emit _ _ _ E1). destruct bang; reflexivity.
  - (* mod *) intros a v u k x s l IH i' H. cbn [svisit_item] in H. srun H. injection H as <-. cbn [pitem_tokens pdrop_where]. attrs_step E.
    srun E2. injection E2 as <-. cbn [pattrs_tokens flat_map app]. pieces. rewrite A, (node_emit _ _ _ E0), <- (name_emit _ _ E1).
    match goal with X : smapM _ l = SOk _ |- _ => rewrite (children_emit _ _ pdrop_where _ _ IH X) end. reflexivity.
  - (* mod; *) intros a v u k x s i' H. cbn [svisit_item] in H. srun H. injection H as <-. cbn [pitem_tokens pdrop_where]. attrs_step E.
    pieces. rewrite A, (node_emit _ _ _ E0), <- (name_emit _ _ E1). reflexivity.
  - (* foreign *) intros a u k abi s l i' H. cbn [svisit_item] in H. srun H. injection H as <-. cbn [pitem_tokens pdrop_where]. attrs_step E.
    cbn [pattrs_tokens flat_map app]. pieces. rewrite A. do 4 f_equal.
    + destruct abi as [p|]; cbn [svisit_opt] in E0; srun E0; injection E0 as <-; [|reflexivity]. apply abi_emit in E2. destruct p as [[v p] z].
      match type of E2 with [SLit (LStr (fst (fst ?q)) _) _] = _ => destruct q as [[v' p'] z'] end. cbn [fst snd] in E2. rewrite <- E2. reflexivity.
    + f_equal. f_equal. rewrite sub_concat. apply smapM_ok in E1. clear -E1 F. induction E1 as [|x y l l' Hx _ IH]; [reflexivity|]. cbn [map List.concat]. rewrite !C_app, IH, (node_emit _ _ _ Hx). reflexivity.
  - (* other *) intros ts i' H. cbn [svisit_item] in H. srun H. injection H as <-. exact (node_emit _ _ _ E).
  - (* statement item *) intros i IH s' H. cbn [pdrop_where_stmt pstmt_tokens].
    destruct i; cbn [svisit_stmt] in H; srun H; injection H as <-; cbn [pstmt_tokens]; try (apply IH; reflexivity || assumption).
    cbn [pdrop_where pitem_tokens]. apply other_stmt_emit. exact E.
  - intros ts s' H. cbn [svisit_stmt] in H. srun H. injection H as <-. apply other_stmt_emit. exact E.
  - (* trait fn *) intros a s g b IH i' H. cbn [svisit_trait_item] in H. srun H. injection H as <-. srun E1. injection E1 as <-. cbn [ptrait_item_tokens pdrop_where_trait_item]. attrs_step E.
    cbn [pattrs_tokens flat_map app]. pieces. rewrite A, (node_emit _ _ _ E0), (children_emit _ _ pdrop_where_stmt _ _ IH E2). reflexivity.
  - intros a s g i' H. cbn [svisit_trait_item] in H. srun H. injection H as <-. cbn [ptrait_item_tokens pdrop_where_trait_item]. attrs_step E.
    pieces. rewrite A, (node_emit _ _ _ E0). reflexivity.
  - intros k ts i' H. cbn [svisit_trait_item] in H. srun H. injection H as <-. exact (node_emit _ _ _ E).
  - (* impl fn *) intros a v d s g b IH i' H. cbn [svisit_impl_item] in H. srun H. injection H as <-. cbn [pimpl_item_tokens pdrop_where_impl_item]. attrs_step E.
    cbn [pattrs_tokens flat_map app]. pieces. rewrite A, (node_emit _ _ _ E0), (node_emit _ _ _ E1), (children_emit _ _ pdrop_where_stmt _ _ IH E2). reflexivity.
  - intros k ts i' H. cbn [svisit_impl_item] in H. srun H. injection H as <-. exact (node_emit _ _ _ E).
Qed.
Lemma stmt_emit s : emits_stmt s.
Proof.
  destruct s as [i|ts]; intros s' H.
  - pose proof (item_emit i) as IH. unfold emits_item in IH. cbn [pdrop_where_stmt pstmt_tokens].
    destruct i; cbn [svisit_stmt] in H; srun H; injection H as <-; cbn [pstmt_tokens]; try (apply IH; assumption).
    cbn [pdrop_where pitem_tokens]. apply other_stmt_emit. exact E.
  - cbn [svisit_stmt] in H. srun H. injection H as <-. apply other_stmt_emit. exact E.
Qed.
Lemma block_emit l l' : svisit_block O SO lookup salias SN l = SOk l' -> alike (pblock_tokens l') (sub (pblock_tokens (map pdrop_where_stmt l))).
Proof.
  intros H. apply (children_emit (svisit_stmt O SO lookup salias SN)); [|exact H]. apply Forall_forall. intros s _. apply stmt_emit.
Qed.
End Emit.
