(** Moving spans through items, the visitor that substitutes and the deprecations. *)
From Coq Require Import String.
From Verif Require Import Base Token Types Values Item Deprecation Failures
  SpanTokens SpanWalker SpanValues SpanEval SpanItem SpanVisitor SpanDeprecation SpanParse SpanMacro SpecSpanShift SpanShiftEval.
Open Scope list_scope.

Section Shift.
Context (g : span -> span) (C : g call_site = call_site).
Notation shift := (shift g).
Notation shift1 := (shift1 g).
Notation rmap := (rmap g).

(** ** Printing *)
Lemma flat_map_same {A} (f : A -> list stt) (h : A -> A) l :
  Forall (fun a => f (h a) = map shift1 (f a)) l -> flat_map f (map h l) = map shift1 (flat_map f l).
Proof. apply flat_map_shift. Qed.
Lemma all_same {A} (P : A -> Prop) l : (forall a, P a) -> Forall P l.
Proof. intros H. apply Forall_forall. auto. Qed.
Lemma attr_tokens_shift a : pattr_tokens (shift_attr g a) = shift (pattr_tokens a).
Proof. destruct a as [p [i|] b m]; reflexivity. Qed.
Lemma attrs_tokens_shift l : pattrs_tokens (shift_attrs g l) = map shift1 (pattrs_tokens l).
Proof. apply flat_map_same, all_same, attr_tokens_shift. Qed.
Lemma outer_shift l : pouter (shift_attrs g l) = shift_attrs g (pouter l).
Proof. induction l as [|[p [i|] b m] l IH]; [reflexivity|exact IH|]. cbn. f_equal. exact IH. Qed.
Lemma inner_shift l : pinner (shift_attrs g l) = shift_attrs g (pinner l).
Proof. induction l as [|[p [i|] b m] l IH]; [reflexivity| |exact IH]. cbn. f_equal. exact IH. Qed.
Lemma hd_shift l : hd call_site (map g l) = g (hd call_site l).
Proof. destruct l; [symmetry; exact C|reflexivity]. Qed.
Lemma punctuated_shift {A} (f : A -> list stt) (h : A -> A) x s l :
  (forall a, f (h a) = map shift1 (f a)) -> ppunctuated f x (shift_seps g s) (map h l) = map shift1 (ppunctuated f x s l).
Proof.
  intros H. destruct s as [ss t]. unfold ppunctuated. cbn [shift_seps sep_spans sep_trailing]. revert ss.
  induction l as [|a l IH]; intros ss; [reflexivity|]. destruct l as [|b l].
  - cbn. rewrite map_app, H, hd_shift. destruct t; reflexivity.
  - change (f (h a) ++ ssym x (hd call_site (map g ss)) :: spunctuated f x (tl (map g ss)) t (map h (b :: l)) =
      map shift1 (f a ++ ssym x (hd call_site ss) :: spunctuated f x (tl ss) t (b :: l))).
    rewrite map_app, H, hd_shift. cbn [map]. do 2 f_equal. replace (tl (map g ss)) with (map g (tl ss)) by (destruct ss; reflexivity). apply IH.
Qed.
Lemma field_tokens_shift f : pfield_tokens (shift_field g f) = map shift1 (pfield_tokens f).
Proof.
  destruct f as [a v x t]. unfold pfield_tokens. cbn [shift_field pf_attrs pf_vis pf_ident pf_ty]. rewrite attrs_tokens_shift, !map_app.
  destruct x as [[[x s] c]|]; reflexivity.
Qed.
Lemma fields_tokens_shift f : pfields_tokens (shift_fields g f) = map shift1 (pfields_tokens f).
Proof. destruct f as [l t s|l t s|]; [| |reflexivity]; cbn; rewrite (punctuated_shift _ _ _ _ _ field_tokens_shift); reflexivity. Qed.
Lemma variant_tokens_shift v : pvariant_tokens (shift_variant g v) = map shift1 (pvariant_tokens v).
Proof.
  destruct v as [a x f d]. unfold pvariant_tokens. cbn [shift_variant pv_attrs pv_ident pv_fields pv_disc].
  rewrite attrs_tokens_shift, fields_tokens_shift, !map_app. destruct d as [[s e]|]; reflexivity.
Qed.
Lemma kw_if_shift o x : skw_if (option_map g o) x = map shift1 (skw_if o x).
Proof. destruct o; reflexivity. Qed.
Lemma group_shift d s ts : SpanItem.sgroup d (g s) (map shift1 ts) = shift1 (SpanItem.sgroup d s ts).
Proof. reflexivity. Qed.

Ltac refold := fold (shift_item g) (shift_stmt g) (shift_trait_item g) (shift_impl_item g).
Lemma tokens_shift_all :
  (forall i, pitem_tokens (shift_item g i) = map shift1 (pitem_tokens i)) /\
  (forall s, pstmt_tokens (shift_stmt g s) = map shift1 (pstmt_tokens s)) /\
  (forall i, ptrait_item_tokens (shift_trait_item g i) = map shift1 (ptrait_item_tokens i)) /\
  (forall i, pimpl_item_tokens (shift_impl_item g i) = map shift1 (pimpl_item_tokens i)).
Proof.
  pose (Pi := fun i => pitem_tokens (shift_item g i) = map shift1 (pitem_tokens i)).
  pose (Ps := fun s => pstmt_tokens (shift_stmt g s) = map shift1 (pstmt_tokens s)).
  pose (Pt := fun i => ptrait_item_tokens (shift_trait_item g i) = map shift1 (ptrait_item_tokens i)).
  pose (Pm := fun i => pimpl_item_tokens (shift_impl_item g i) = map shift1 (pimpl_item_tokens i)).
  assert (H : (forall i, Pi i) /\ (forall s, Ps s) /\ (forall i, Pt i) /\ (forall i, Pm i));
    [|exact H].
  assert (A1 : forall a v s k b, Forall Ps b -> Pi (PFn a v s k b)).
  { intros a v s k b Hb. unfold Pi. cbn [shift_item pitem_tokens]. refold. rewrite outer_shift, inner_shift, !attrs_tokens_shift, (flat_map_same _ _ _ Hb), <- map_app, group_shift, !map_app. reflexivity. }
  assert (A2 : forall a v k x p f s, Pi (PStruct a v k x p f s)).
  { intros a v k x p f s. unfold Pi. cbn [shift_item pitem_tokens]. refold. rewrite outer_shift, attrs_tokens_shift, !map_app. cbn [map]. rewrite !map_app, fields_tokens_shift.
    destruct f; cbn [shift_fields]; rewrite ?map_app; reflexivity. }
  assert (A3 : forall a v k x p s l t, Pi (PEnum a v k x p s l t)).
  { intros. unfold Pi. cbn [shift_item pitem_tokens]. refold. rewrite outer_shift, attrs_tokens_shift, (punctuated_shift _ _ _ _ _ variant_tokens_shift), group_shift, !map_app. cbn [map]. rewrite !map_app. reflexivity. }
  assert (A4 : forall a v k x p s l t, Pi (PUnion a v k x p s l t)).
  { intros. unfold Pi. cbn [shift_item pitem_tokens]. refold. rewrite outer_shift, attrs_tokens_shift, (punctuated_shift _ _ _ _ _ field_tokens_shift), group_shift, !map_app. cbn [map]. rewrite !map_app. reflexivity. }
  assert (A5 : forall a v u au k x p c s t b l, Forall Pt l -> Pi (PTrait a v u au k x p c s t b l)).
  { intros a v u au k x p c s t b l Hl. unfold Pi. cbn [shift_item pitem_tokens]. refold.
    rewrite outer_shift, inner_shift, !attrs_tokens_shift, (flat_map_same _ _ _ Hl), <- map_app, group_shift, !kw_if_shift, !map_app. cbn [map]. rewrite !map_app.
    assert (E : match map shift s with [] => [] | _ => ssym ":" (g c) :: ppunctuated (fun b => b) "+" (shift_seps g t) (map shift s) end =
      map shift1 (match s with [] => [] | _ => ssym ":" c :: ppunctuated (fun b => b) "+" t s end)).
    { rewrite (punctuated_shift (fun b => b) shift) by reflexivity. destruct s; reflexivity. }
    rewrite E. reflexivity. }
  assert (A6 : forall a d u k p tr ty s l, Forall Pm l -> Pi (PImpl a d u k p tr ty s l)).
  { intros a d u k p tr ty s l Hl. unfold Pi. cbn [shift_item pitem_tokens]. refold.
    rewrite outer_shift, inner_shift, !attrs_tokens_shift, (flat_map_same _ _ _ Hl), <- map_app, group_shift, !kw_if_shift, !map_app. cbn [map]. rewrite !map_app.
    destruct tr as [[[[b|] path] f]|]; cbn [option_map shift_impl_trait fst snd]; rewrite ?map_app; reflexivity. }
  assert (A7 : forall a v u k x s l, Forall Pi l -> Pi (PMod a v u k x s (Some l))).
  { intros a v u k x s l Hl. unfold Pi. cbn [shift_item pitem_tokens]. refold.
    rewrite outer_shift, inner_shift, !attrs_tokens_shift, (flat_map_same _ _ _ Hl), <- map_app, group_shift, !kw_if_shift, !map_app. cbn [map]. rewrite !map_app. reflexivity. }
  assert (A8 : forall a v u k x s, Pi (PMod a v u k x s None)).
  { intros. unfold Pi. cbn [shift_item pitem_tokens]. refold. rewrite outer_shift, attrs_tokens_shift, kw_if_shift, !map_app. cbn [map]. rewrite !map_app. reflexivity. }
  assert (A9 : forall a u k abi s l, Pi (PForeign a u k abi s l)).
  { intros a u k abi s l. unfold Pi. cbn [shift_item pitem_tokens]. refold.
    change (List.concat (map shift l)) with (List.concat (map (map shift1) l)).
    rewrite outer_shift, inner_shift, !attrs_tokens_shift, <- concat_map, <- map_app, group_shift, kw_if_shift, !map_app. cbn [map]. rewrite !map_app.
    destruct abi as [[[v p] x]|]; reflexivity. }
  assert (A10 : forall ts, Pi (POther ts)) by reflexivity.
  assert (A11 : forall i, Pi i -> Ps (PSItem i)) by (intros i Hi; exact Hi).
  assert (A12 : forall ts, Ps (PSOther ts)) by reflexivity.
  assert (A13 : forall a s k b, Forall Ps b -> Pt (PTFn a s k (Some b))).
  { intros a s k b Hb. unfold Pt. cbn [shift_trait_item ptrait_item_tokens]. refold. rewrite outer_shift, inner_shift, !attrs_tokens_shift, (flat_map_same _ _ _ Hb), <- map_app, group_shift, !map_app. reflexivity. }
  assert (A14 : forall a s k, Pt (PTFn a s k None)).
  { intros. unfold Pt. cbn [shift_trait_item ptrait_item_tokens]. refold. rewrite outer_shift, attrs_tokens_shift, !map_app. reflexivity. }
  assert (A15 : forall k ts, Pt (PTOther k ts)) by reflexivity.
  assert (A16 : forall a v d s k b, Forall Ps b -> Pm (PMFn a v d s k b)).
  { intros a v d s k b Hb. unfold Pm. cbn [shift_impl_item pimpl_item_tokens]. refold. rewrite outer_shift, inner_shift, !attrs_tokens_shift, (flat_map_same _ _ _ Hb), <- map_app, group_shift, kw_if_shift, !map_app. reflexivity. }
  assert (A17 : forall k ts, Pm (PMOther k ts)) by reflexivity.
  split; [|split; [|split]].
  - exact (pitem_ind' Pi Ps Pt Pm A1 A2 A3 A4 A5 A6 A7 A8 A9 A10 A11 A12 A13 A14 A15 A16 A17).
  - exact (pstmt_ind' Pi Ps Pt Pm A1 A2 A3 A4 A5 A6 A7 A8 A9 A10 A11 A12 A13 A14 A15 A16 A17).
  - exact (ptrait_item_ind' Pi Ps Pt Pm A1 A2 A3 A4 A5 A6 A7 A8 A9 A10 A11 A12 A13 A14 A15 A16 A17).
  - exact (pimpl_item_ind' Pi Ps Pt Pm A1 A2 A3 A4 A5 A6 A7 A8 A9 A10 A11 A12 A13 A14 A15 A16 A17).
Qed.
Lemma block_tokens_shift l : pblock_tokens (shift_block g l) = shift (pblock_tokens l).
Proof. apply flat_map_same, all_same, tokens_shift_all. Qed.

(** ** The visitor *)
Section Visit.
Context (O : oracles) (SO : soracles) (lookup : str -> option value) (salias salias' : str -> option (list stt)) (SN : ssyntax_nodes).
Context (Ha : forall x, salias' x = option_map shift (salias x)) (MO : moves_oracles g SO) (MN : moves_nodes g SN).

Lemma visit_node_shift k ts : svisit_node O lookup salias' SN k (shift ts) = rmap shift (svisit_node O lookup salias SN k ts).
Proof. apply substitute_shift; [exact Ha|apply (moves_reparse _ _ MN)|apply (moves_reparse_text _ _ MN)]. Qed.
Lemma visit_name_shift x : svisit_name O SO lookup salias' (shift_name g x) = rmap (shift_name g) (svisit_name O SO lookup salias x).
Proof.
  unfold svisit_name. change (pname_tokens (shift_name g x)) with (shift (pname_tokens x)).
  apply substitute_shift; [exact Ha|apply (moves_ident _ _ MO)|intros; apply (moves_error_text _ _ MO)].
Qed.
Lemma visit_opt_shift {A} (f f' : A -> sres A) (h : A -> A) x : (forall a, f' (h a) = rmap h (f a)) ->
  svisit_opt f' (option_map h x) = rmap (option_map h) (svisit_opt f x).
Proof. intros H. destruct x as [a|]; [|reflexivity]. cbn [option_map svisit_opt]. apply (rbind g h); [apply H|reflexivity]. Qed.
Lemma parse_outer_shift k : forall ts, List.length ts <= k -> sparse_outer SN (shift ts) = option_map (shift_attrs g) (sparse_outer SN ts).
Proof.
  induction k as [|k IH]; intros ts Hk; [destruct ts; [reflexivity|cbn in Hk; lia]|].
  destruct ts as [|[? ?|c j s|? ?|? ? ?] [|[? ?|? ? ?|? ?|[] m d] rest]]; try reflexivity.
  cbn [SpecSpanShift.shift map SpecSpanShift.shift1 sparse_outer]. destruct (N.eqb c 35); [|reflexivity].
  change (map shift1 m) with (shift m). rewrite (moves_reparse _ _ MN). change (map shift1 rest) with (shift rest).
  rewrite IH by (cbn in Hk; lia). destruct (sreparse SN KMeta m); [|reflexivity]. destruct (sparse_outer SN rest); reflexivity.
Qed.
Lemma visit_attrs_shift l : svisit_attrs O lookup salias' SN (shift_attrs g l) = rmap (shift_attrs g) (svisit_attrs O lookup salias SN l).
Proof.
  unfold svisit_attrs. rewrite attrs_tokens_shift. apply (substitute_shift g O lookup salias salias' Ha (shift_attrs g));
    [intros ts; apply (parse_outer_shift _ ts (le_n _))|apply (moves_attrs_text _ _ MN)].
Qed.
Ltac bind h lem := apply (rbind g h); [apply lem|intros].
Lemma visit_field_name_shift x : svisit_field_name O SO lookup salias' (shift_field_name g x) =
  rmap (shift_field_name g) (svisit_field_name O SO lookup salias x).
Proof. unfold svisit_field_name. bind (shift_name g) visit_name_shift. reflexivity. Qed.
Lemma visit_field_shift f : svisit_field O SO lookup salias' SN (shift_field g f) = rmap (shift_field g) (svisit_field O SO lookup salias SN f).
Proof.
  unfold svisit_field. bind (shift_attrs g) visit_attrs_shift. bind (SpecSpanShift.shift g) visit_node_shift.
  apply (rbind g (option_map (shift_field_name g))); [apply visit_opt_shift, visit_field_name_shift|intros]. bind (SpecSpanShift.shift g) visit_node_shift. reflexivity.
Qed.
Lemma visit_fields_shift f : svisit_fields O SO lookup salias' SN (shift_fields g f) = rmap (shift_fields g) (svisit_fields O SO lookup salias SN f).
Proof.
  destruct f as [l t s|l t s|]; [| |reflexivity]; cbn [shift_fields svisit_fields];
    (apply (rbind g (map (shift_field g))); [apply mapM_shift, all_same, visit_field_shift|reflexivity]).
Qed.
Lemma visit_generics_shift x : svisit_generics O lookup salias' SN (shift_generics g x) = rmap (shift_generics g) (svisit_generics O lookup salias SN x).
Proof. unfold svisit_generics. bind (SpecSpanShift.shift g) visit_node_shift. reflexivity. Qed.
Lemma visit_variant_shift v : svisit_variant O SO lookup salias' SN (shift_variant g v) = rmap (shift_variant g) (svisit_variant O SO lookup salias SN v).
Proof.
  unfold svisit_variant. bind (shift_attrs g) visit_attrs_shift. bind (shift_name g) visit_name_shift. bind (shift_fields g) visit_fields_shift.
  apply (rbind g (option_map (shift_disc g))); [apply visit_opt_shift; intros d; bind (SpecSpanShift.shift g) visit_node_shift; reflexivity|reflexivity].
Qed.
Lemma visit_other_shift ts : svisit_other_stmt O lookup salias' SN (shift ts) = rmap shift (svisit_other_stmt O lookup salias SN ts).
Proof.
  unfold svisit_other_stmt.
  assert (E : [SpanItem.sgroup Brace call_site (shift ts)] = shift [SpanItem.sgroup Brace call_site ts])
    by (unfold SpanItem.sgroup; cbn [SpecSpanShift.shift map SpecSpanShift.shift1]; rewrite shift_single, C; reflexivity).
  rewrite E, (moves_reparse _ _ MN). destruct (sreparse SN KBlock _) as [b|]; [|reflexivity]. cbn [option_map]. bind (SpecSpanShift.shift g) visit_node_shift.
  destruct a as [|[? ?|? ? ?|? ?|[] ? ?] [|? ?]]; reflexivity.
Qed.
Lemma visit_abi_shift l : svisit_abi O SO lookup salias' (shift_lit g l) = rmap (shift_lit g) (svisit_abi O SO lookup salias l).
Proof.
  destruct l as [[v p] s]. unfold svisit_abi. cbn [shift_lit fst snd].
  apply (substitute_shift g O lookup salias salias' Ha (shift_lit g) (sparse_lit_str SO) (syn_error_text SO TyLitStr) (moves_lit_str _ _ MO) (moves_error_text _ _ MO TyLitStr) [SLit (LStr v p) s]).
Qed.
Ltac revisit :=
  fold (svisit_item O SO lookup salias SN) (svisit_stmt O SO lookup salias SN) (svisit_trait_item O SO lookup salias SN) (svisit_impl_item O SO lookup salias SN);
  fold (svisit_item O SO lookup salias' SN) (svisit_stmt O SO lookup salias' SN) (svisit_trait_item O SO lookup salias' SN) (svisit_impl_item O SO lookup salias' SN).
Lemma visit_shift_all :
  (forall i, svisit_item O SO lookup salias' SN (shift_item g i) = rmap (shift_item g) (svisit_item O SO lookup salias SN i)) /\
  (forall s, svisit_stmt O SO lookup salias' SN (shift_stmt g s) = rmap (shift_stmt g) (svisit_stmt O SO lookup salias SN s)).
Proof.
  pose (Pi := fun i => svisit_item O SO lookup salias' SN (shift_item g i) = rmap (shift_item g) (svisit_item O SO lookup salias SN i)).
  pose (Ps := fun s => svisit_stmt O SO lookup salias' SN (shift_stmt g s) = rmap (shift_stmt g) (svisit_stmt O SO lookup salias SN s)).
  pose (Pt := fun i => svisit_trait_item O SO lookup salias' SN (shift_trait_item g i) = rmap (shift_trait_item g) (svisit_trait_item O SO lookup salias SN i)).
  pose (Pm := fun i => svisit_impl_item O SO lookup salias' SN (shift_impl_item g i) = rmap (shift_impl_item g) (svisit_impl_item O SO lookup salias SN i)).
  assert (H : (forall i, Pi i) /\ (forall s, Ps s)); [|exact H].
  assert (A1 : forall a v s k b, Forall Ps b -> Pi (PFn a v s k b)).
  { intros a v s k b Hb. unfold Pi. cbn [shift_item svisit_item]. refold. revisit. bind (shift_attrs g) visit_attrs_shift. do 2 bind (SpecSpanShift.shift g) visit_node_shift.
    apply (rbind g (map (shift_stmt g))); [apply mapM_shift, Hb|reflexivity]. }
  assert (A2 : forall a v k x p f s, Pi (PStruct a v k x p f s)).
  { intros. unfold Pi. cbn [shift_item svisit_item]. refold. revisit. bind (shift_attrs g) visit_attrs_shift. bind (SpecSpanShift.shift g) visit_node_shift. bind (shift_name g) visit_name_shift.
    bind (shift_generics g) visit_generics_shift. bind (shift_fields g) visit_fields_shift. reflexivity. }
  assert (A3 : forall a v k x p s l t, Pi (PEnum a v k x p s l t)).
  { intros. unfold Pi. cbn [shift_item svisit_item]. refold. revisit. bind (shift_attrs g) visit_attrs_shift. bind (SpecSpanShift.shift g) visit_node_shift. bind (shift_name g) visit_name_shift.
    bind (shift_generics g) visit_generics_shift. apply (rbind g (map (shift_variant g))); [apply mapM_shift, all_same, visit_variant_shift|reflexivity]. }
  assert (A4 : forall a v k x p s l t, Pi (PUnion a v k x p s l t)).
  { intros. unfold Pi. cbn [shift_item svisit_item]. refold. revisit. bind (shift_attrs g) visit_attrs_shift. bind (SpecSpanShift.shift g) visit_node_shift. bind (shift_name g) visit_name_shift.
    bind (shift_generics g) visit_generics_shift. apply (rbind g (map (shift_field g))); [apply mapM_shift, all_same, visit_field_shift|reflexivity]. }
  assert (A5 : forall a v u au k x p c s t b l, Forall Pt l -> Pi (PTrait a v u au k x p c s t b l)).
  { intros a v u au k x p c s t b l Hl. unfold Pi. cbn [shift_item svisit_item]. refold. revisit. bind (shift_attrs g) visit_attrs_shift. bind (SpecSpanShift.shift g) visit_node_shift. bind (shift_name g) visit_name_shift.
    bind (shift_generics g) visit_generics_shift. apply (rbind g (map shift)); [apply mapM_shift, all_same; intros; apply visit_node_shift|intros].
    apply (rbind g (map (shift_trait_item g))); [apply mapM_shift, Hl|reflexivity]. }
  assert (A6 : forall a d u k p tr ty s l, Forall Pm l -> Pi (PImpl a d u k p tr ty s l)).
  { intros a d u k p tr ty s l Hl. unfold Pi. cbn [shift_item svisit_item]. refold. revisit. bind (shift_attrs g) visit_attrs_shift. bind (shift_generics g) visit_generics_shift.
    apply (rbind g (option_map (shift_impl_trait g))); [apply visit_opt_shift; intros bp; bind (SpecSpanShift.shift g) visit_node_shift; reflexivity|intros].
    bind (SpecSpanShift.shift g) visit_node_shift. apply (rbind g (map (shift_impl_item g))); [apply mapM_shift, Hl|reflexivity]. }
  assert (A7 : forall a v u k x s l, Forall Pi l -> Pi (PMod a v u k x s (Some l))).
  { intros a v u k x s l Hl. unfold Pi. cbn [shift_item svisit_item]. refold. revisit. bind (shift_attrs g) visit_attrs_shift. bind (SpecSpanShift.shift g) visit_node_shift. bind (shift_name g) visit_name_shift.
    apply (rbind g (option_map (map (shift_item g)))); [apply (rbind g (map (shift_item g))); [apply mapM_shift, Hl|reflexivity]|]. intros [|]; reflexivity. }
  assert (A8 : forall a v u k x s, Pi (PMod a v u k x s None)).
  { intros. unfold Pi. cbn [shift_item svisit_item]. refold. revisit. bind (shift_attrs g) visit_attrs_shift. bind (SpecSpanShift.shift g) visit_node_shift. bind (shift_name g) visit_name_shift. reflexivity. }
  assert (A9 : forall a u k abi s l, Pi (PForeign a u k abi s l)).
  { intros. unfold Pi. cbn [shift_item svisit_item]. refold. revisit. bind (shift_attrs g) visit_attrs_shift. apply (rbind g (option_map (shift_lit g))); [apply visit_opt_shift, visit_abi_shift|intros].
    apply (rbind g (map shift)); [apply mapM_shift, all_same; intros; apply visit_node_shift|reflexivity]. }
  assert (A10 : forall ts, Pi (POther ts)).
  { intros. unfold Pi. cbn [shift_item svisit_item]. refold. revisit. bind (SpecSpanShift.shift g) visit_node_shift. reflexivity. }
  assert (A12 : forall ts, Ps (PSOther ts)).
  { intros. unfold Ps. cbn [shift_stmt svisit_stmt]. refold. revisit. bind (SpecSpanShift.shift g) visit_other_shift. reflexivity. }
  assert (A11 : forall i, Pi i -> Ps (PSItem i)).
  { intros i Hi. destruct i; try (unfold Ps; cbn [shift_stmt svisit_stmt shift_item]; refold; revisit;
      apply (rbind g (shift_item g)); [exact Hi|reflexivity]). exact (A12 ts). }
  assert (A13 : forall a s k b, Forall Ps b -> Pt (PTFn a s k (Some b))).
  { intros a s k b Hb. unfold Pt. cbn [shift_trait_item svisit_trait_item]. refold. revisit. bind (shift_attrs g) visit_attrs_shift. bind (SpecSpanShift.shift g) visit_node_shift.
    apply (rbind g (option_map (map (shift_stmt g)))); [apply (rbind g (map (shift_stmt g))); [apply mapM_shift, Hb|reflexivity]|]. intros [|]; reflexivity. }
  assert (A14 : forall a s k, Pt (PTFn a s k None)).
  { intros. unfold Pt. cbn [shift_trait_item svisit_trait_item]. refold. revisit. bind (shift_attrs g) visit_attrs_shift. bind (SpecSpanShift.shift g) visit_node_shift. reflexivity. }
  assert (A15 : forall k ts, Pt (PTOther k ts)).
  { intros. unfold Pt. cbn [shift_trait_item svisit_trait_item]. refold. revisit. bind (SpecSpanShift.shift g) visit_node_shift. reflexivity. }
  assert (A16 : forall a v d s k b, Forall Ps b -> Pm (PMFn a v d s k b)).
  { intros a v d s k b Hb. unfold Pm. cbn [shift_impl_item svisit_impl_item]. refold. revisit. bind (shift_attrs g) visit_attrs_shift. do 2 bind (SpecSpanShift.shift g) visit_node_shift.
    apply (rbind g (map (shift_stmt g))); [apply mapM_shift, Hb|reflexivity]. }
  assert (A17 : forall k ts, Pm (PMOther k ts)).
  { intros. unfold Pm. cbn [shift_impl_item svisit_impl_item]. refold. revisit. bind (SpecSpanShift.shift g) visit_node_shift. reflexivity. }
  split.
  - exact (pitem_ind' Pi Ps Pt Pm A1 A2 A3 A4 A5 A6 A7 A8 A9 A10 A11 A12 A13 A14 A15 A16 A17).
  - exact (pstmt_ind' Pi Ps Pt Pm A1 A2 A3 A4 A5 A6 A7 A8 A9 A10 A11 A12 A13 A14 A15 A16 A17).
Qed.
Lemma visit_block_shift l : svisit_block O SO lookup salias' SN (shift_block g l) = rmap (shift_block g) (svisit_block O SO lookup salias SN l).
Proof. apply mapM_shift, all_same, visit_shift_all. Qed.
End Visit.

(** ** Deprecations *)
Lemma to_attribute_shift w : shift_attr g (sto_attribute w) = sto_attribute w.
Proof. unfold shift_attr, sto_attribute. cbn. unfold shift_delims, single. cbn. rewrite C. reflexivity. Qed.
Lemma process_shift p ws a b : sprocess_deprecations p ws (shift_attrs g a) b =
  (fst (sprocess_deprecations p ws a b), shift_attrs g (snd (sprocess_deprecations p ws a b))).
Proof.
  unfold sprocess_deprecations. destruct (pop ws) as [[w ws']|]; [|reflexivity].
  assert (E : existsb (fun a => names_deprecated (map erase (pa_meta a))) (shift_attrs g a) = existsb (fun a => names_deprecated (map erase (pa_meta a))) a).
  { induction a as [|x a IH]; [reflexivity|]. cbn [shift_attrs map existsb]. f_equal; [|exact IH]. cbn [shift_attr pa_meta]. rewrite erase_shift. reflexivity. }
  rewrite E. destruct (_ || _); [reflexivity|]. cbn [fst snd]. unfold shift_attrs. rewrite map_app. cbn [map]. rewrite to_attribute_shift. reflexivity.
Qed.
Lemma each_shift (f : list warning -> ptree -> list warning * ptree) l :
  Forall (fun t => forall ws, f ws (shift_tree g t) = (fst (f ws t), shift_tree g (snd (f ws t)))) l ->
  forall ws, visit_each f ws (map (shift_tree g) l) = (fst (visit_each f ws l), map (shift_tree g) (snd (visit_each f ws l))).
Proof.
  induction 1 as [|t l Ht _ IH]; intros ws; [reflexivity|]. cbn [map visit_each]. rewrite Ht. destruct (f ws t) as [ws1 t']. cbn [fst snd].
  rewrite IH. destruct (visit_each f ws1 l) as [ws2 l']. reflexivity.
Qed.
Lemma visit_tree_shift p : forall t ws, svisit_tree p ws (shift_tree g t) = (fst (svisit_tree p ws t), shift_tree g (snd (svisit_tree p ws t))).
Proof.
  induction t as [t|d s l IH|a b l IH] using ptree_ind'; intros ws; [reflexivity| |]; cbn [shift_tree svisit_tree].
  - rewrite (each_shift _ _ IH). destruct (visit_each _ ws l) as [ws' l']. reflexivity.
  - rewrite process_shift. destruct (sprocess_deprecations p ws a b) as [ws1 a']. cbn [fst snd]. rewrite (each_shift _ _ IH).
    destruct (visit_each _ ws1 l) as [ws2 l']. reflexivity.
Qed.
Lemma emit_shift t f : sscope_emit t (map (shift_tree g) f) = map (shift_tree g) (sscope_emit t f).
Proof.
  destruct t as [s|]; [|reflexivity]. cbn [sscope_emit]. unfold semit. destruct (warnings s) as [|w ws]; [reflexivity|].
  rewrite (each_shift _ f); [reflexivity|]. apply all_same. intros x. apply visit_tree_shift.
Qed.
Lemma tree_tokens_shift : forall t, ptree_tokens (shift_tree g t) = map shift1 (ptree_tokens t).
Proof.
  induction t as [t|d s l IH|a b l IH] using ptree_ind'; [reflexivity| |]; cbn [shift_tree ptree_tokens].
  - rewrite (flat_map_same _ _ _ IH), group_shift. reflexivity.
  - rewrite attrs_tokens_shift, (flat_map_same _ _ _ IH), map_app. reflexivity.
Qed.
Lemma forest_tokens_shift f : pforest_tokens (map (shift_tree g) f) = shift (pforest_tokens f).
Proof. apply flat_map_same, all_same, tree_tokens_shift. Qed.
End Shift.
