(** Renaming identifiers through items, the visitor that substitutes and the deprecations. *)
From Coq Require Import String.
From Verif Require Import Base BaseFacts Token Types Values Item SubstituteIdents AliasSubstitution Deprecation Interpreter Parse SpecRename RenameWalk.
Open Scope list_scope.

Section Rename.
Context (r : naming) (W : Forall (spared r) printed_words) (K : forall v p, on_literals r (LStr v p) = LStr v p).
Notation rename := (rename r).
Notation rename1 := (rename1 r).

Lemma kept w : In w printed_words -> r w = w.
Proof. intros H. exact (proj2 (proj1 (Forall_forall _ _) W _ H w) eq_refl). Qed.
Lemma kw_rename x : In (txt x) printed_words -> TIdent (r (txt x)) = kw x.
Proof. intros H. rewrite kept by exact H. reflexivity. Qed.
Ltac known := repeat (first [left; reflexivity|right]).

(** ** Printing *)
Lemma flat_map_rename {A B} (f : A -> list tt) (f' : B -> list tt) (h : A -> B) l :
  Forall (fun a => f' (h a) = map rename1 (f a)) l -> flat_map f' (map h l) = map rename1 (flat_map f l).
Proof. induction 1 as [|a l Ha _ IH]; [reflexivity|]. cbn [map flat_map]. rewrite map_app, Ha, IH. reflexivity. Qed.
Lemma all_same {A} (P : A -> Prop) l : (forall a, P a) -> Forall P l.
Proof. intros H. apply Forall_forall. auto. Qed.
Lemma attr_tokens_rename a : attr_tokens (rename_attr r a) = map rename1 (attr_tokens a).
Proof. destruct a as [[] m]; reflexivity. Qed.
Lemma attrs_tokens_rename l : attrs_tokens (rename_attrs r l) = map rename1 (attrs_tokens l).
Proof. apply flat_map_rename, all_same, attr_tokens_rename. Qed.
Lemma outer_rename l : outer (rename_attrs r l) = rename_attrs r (outer l).
Proof. induction l as [|[[] m] l IH]; [reflexivity|exact IH|]. cbn. f_equal. exact IH. Qed.
Lemma inner_rename l : inner (rename_attrs r l) = rename_attrs r (inner l).
Proof. induction l as [|[[] m] l IH]; [reflexivity| |exact IH]. cbn. f_equal. exact IH. Qed.
Lemma punctuated_rename {A} (f : A -> list tt) (h : A -> A) c j t l :
  (forall a, f (h a) = map rename1 (f a)) -> punctuated f (TPunct c j) t (map h l) = map rename1 (punctuated f (TPunct c j) t l).
Proof.
  intros H. induction l as [|a l IH]; [reflexivity|]. destruct l as [|b l].
  - cbn. rewrite map_app, H. destruct t; reflexivity.
  - change (f (h a) ++ TPunct c j :: punctuated f (TPunct c j) t (map h (b :: l)) = map rename1 (f a ++ TPunct c j :: punctuated f (TPunct c j) t (b :: l))).
    rewrite map_app, H. cbn [map]. do 2 f_equal. exact IH.
Qed.
Lemma field_tokens_rename f : field_tokens (rename_field r f) = map rename1 (field_tokens f).
Proof.
  destruct f as [a v x t]. unfold field_tokens. cbn [rename_field f_attrs f_vis f_ident f_ty]. rewrite attrs_tokens_rename, !map_app.
  destruct x; reflexivity.
Qed.
Lemma fields_tokens_rename f : fields_tokens (rename_fields r f) = map rename1 (fields_tokens f).
Proof. destruct f as [l t|l t|]; [| |reflexivity]; cbn [rename_fields fields_tokens map SpecRename.rename1]; unfold sym; rewrite (punctuated_rename _ _ _ _ _ _ field_tokens_rename); reflexivity. Qed.
Lemma variant_tokens_rename v : variant_tokens (rename_variant r v) = map rename1 (variant_tokens v).
Proof.
  destruct v as [a x f d]. unfold variant_tokens. cbn [rename_variant v_attrs v_ident v_fields v_disc].
  rewrite attrs_tokens_rename, fields_tokens_rename, !map_app. cbn [map]. rewrite !map_app. destruct d; reflexivity.
Qed.
Lemma kw_if_rename b x : In (txt x) printed_words -> map rename1 (kw_if b x) = kw_if b x.
Proof. intros H. destruct b; [|reflexivity]. cbn [kw_if map kw SpecRename.rename1]. rewrite kept by exact H. reflexivity. Qed.

Ltac refold := fold (rename_item r) (rename_stmt r) (rename_trait_item r) (rename_impl_item r).
Ltac words := rewrite ?kw_if_rename by known; cbn [kw SpecRename.rename1]; rewrite ?kw_rename by known.
Lemma tokens_rename_all :
  (forall i, item_tokens (rename_item r i) = map rename1 (item_tokens i)) /\
  (forall s, stmt_tokens (rename_stmt r s) = map rename1 (stmt_tokens s)) /\
  (forall i, trait_item_tokens (rename_trait_item r i) = map rename1 (trait_item_tokens i)) /\
  (forall i, impl_item_tokens (rename_impl_item r i) = map rename1 (impl_item_tokens i)).
Proof.
  pose (Pi := fun i => item_tokens (rename_item r i) = map rename1 (item_tokens i)).
  pose (Ps := fun s => stmt_tokens (rename_stmt r s) = map rename1 (stmt_tokens s)).
  pose (Pt := fun i => trait_item_tokens (rename_trait_item r i) = map rename1 (trait_item_tokens i)).
  pose (Pm := fun i => impl_item_tokens (rename_impl_item r i) = map rename1 (impl_item_tokens i)).
  assert (H : (forall i, Pi i) /\ (forall s, Ps s) /\ (forall i, Pt i) /\ (forall i, Pm i));
    [|exact H].
  assert (A1 : forall a v s b, Forall Ps b -> Pi (IFn a v s b)).
  { intros a v s b Hb. unfold Pi. cbn [rename_item item_tokens]. refold.
    rewrite outer_rename, inner_rename, !attrs_tokens_rename, (flat_map_rename _ _ _ _ Hb), !map_app. cbn [map SpecRename.rename1]. rewrite !map_app. reflexivity. }
  assert (A2 : forall a v x p f, Pi (IStruct a v x p f)).
  { intros a v x p f. unfold Pi. cbn [rename_item item_tokens]. refold. rewrite outer_rename, attrs_tokens_rename, !map_app. cbn [map]. words. rewrite fields_tokens_rename.
    destruct f; cbn [rename_fields]; rewrite ?map_app; reflexivity. }
  assert (A3 : forall a v x p l t, Pi (IEnum a v x p l t)).
  { intros. unfold Pi. cbn [rename_item item_tokens]. refold. unfold sym. rewrite outer_rename, attrs_tokens_rename, (punctuated_rename _ _ _ _ _ _ variant_tokens_rename), !map_app. cbn [map]. words. reflexivity. }
  assert (A4 : forall a v x p l t, Pi (IUnion a v x p l t)).
  { intros. unfold Pi. cbn [rename_item item_tokens]. refold. unfold sym. rewrite outer_rename, attrs_tokens_rename, (punctuated_rename _ _ _ _ _ _ field_tokens_rename), !map_app. cbn [map]. words. reflexivity. }
  assert (A5 : forall a v u au x p s t l, Forall Pt l -> Pi (ITrait a v u au x p s t l)).
  { intros a v u au x p s t l Hl. unfold Pi. cbn [rename_item item_tokens]. refold.
    rewrite outer_rename, inner_rename, !attrs_tokens_rename, (flat_map_rename _ _ _ _ Hl), !map_app. cbn [map]. words. rewrite <- map_app.
    assert (E : match map rename s with [] => [] | _ => sym ":" :: punctuated (fun b => b) (sym "+") t (map rename s) end =
      map rename1 (match s with [] => [] | _ => sym ":" :: punctuated (fun b => b) (sym "+") t s end)).
    { unfold sym. rewrite (punctuated_rename (fun b => b) rename) by reflexivity. destruct s; reflexivity. }
    rewrite E. reflexivity. }
  assert (A6 : forall a d u p tr ty l, Forall Pm l -> Pi (IImpl a d u p tr ty l)).
  { intros a d u p tr ty l Hl. unfold Pi. cbn [rename_item item_tokens]. refold.
    rewrite outer_rename, inner_rename, !attrs_tokens_rename, (flat_map_rename _ _ _ _ Hl), !map_app. cbn [map]. words. rewrite <- map_app.
    destruct tr as [[[] path]|]; cbn [option_map rename_impl_trait fst snd]; rewrite ?map_app; cbn [map]; words; reflexivity. }
  assert (A7 : forall a v u x l, Forall Pi l -> Pi (IMod a v u x (Some l))).
  { intros a v u x l Hl. unfold Pi. cbn [rename_item item_tokens]. refold.
    rewrite outer_rename, inner_rename, !attrs_tokens_rename, (flat_map_rename _ _ _ _ Hl), !map_app. cbn [map]. words. rewrite <- map_app. reflexivity. }
  assert (A8 : forall a v u x, Pi (IMod a v u x None)).
  { intros. unfold Pi. cbn [rename_item item_tokens]. refold. rewrite outer_rename, attrs_tokens_rename, !map_app. cbn [map]. words. reflexivity. }
  assert (A9 : forall a u abi l, Pi (IForeign a u abi l)).
  { intros a u abi l. unfold Pi. cbn [rename_item item_tokens]. refold.
    change (List.concat (map rename l)) with (List.concat (map (map rename1) l)).
    rewrite outer_rename, inner_rename, !attrs_tokens_rename, <- concat_map, !map_app. cbn [map]. words. rewrite <- map_app.
    destruct abi as [[v p]|]; cbn [map SpecRename.rename1]; rewrite ?K; reflexivity. }
  assert (A10 : forall ts, Pi (IOther ts)) by reflexivity.
  assert (A11 : forall i, Pi i -> Ps (SItem i)) by (intros i Hi; exact Hi).
  assert (A12 : forall ts, Ps (SOther ts)) by reflexivity.
  assert (A13 : forall a s b, Forall Ps b -> Pt (TFn a s (Some b))).
  { intros a s b Hb. unfold Pt. cbn [rename_trait_item trait_item_tokens]. refold.
    rewrite outer_rename, inner_rename, !attrs_tokens_rename, (flat_map_rename _ _ _ _ Hb), !map_app, <- map_app. reflexivity. }
  assert (A14 : forall a s, Pt (TFn a s None)).
  { intros. unfold Pt. cbn [rename_trait_item trait_item_tokens]. refold. rewrite outer_rename, attrs_tokens_rename, !map_app. reflexivity. }
  assert (A15 : forall k ts, Pt (TOther k ts)) by reflexivity.
  assert (A16 : forall a v d s b, Forall Ps b -> Pm (MFn a v d s b)).
  { intros a v d s b Hb. unfold Pm. cbn [rename_impl_item impl_item_tokens]. refold.
    rewrite outer_rename, inner_rename, !attrs_tokens_rename, (flat_map_rename _ _ _ _ Hb), !map_app. words. rewrite <- map_app. reflexivity. }
  assert (A17 : forall k ts, Pm (MOther k ts)) by reflexivity.
  split; [|split; [|split]].
  - exact (item_ind' Pi Ps Pt Pm A1 A2 A3 A4 A5 A6 A7 A8 A9 A10 A11 A12 A13 A14 A15 A16 A17).
  - exact (stmt_ind' Pi Ps Pt Pm A1 A2 A3 A4 A5 A6 A7 A8 A9 A10 A11 A12 A13 A14 A15 A16 A17).
  - exact (trait_item_ind' Pi Ps Pt Pm A1 A2 A3 A4 A5 A6 A7 A8 A9 A10 A11 A12 A13 A14 A15 A16 A17).
  - exact (impl_item_ind' Pi Ps Pt Pm A1 A2 A3 A4 A5 A6 A7 A8 A9 A10 A11 A12 A13 A14 A15 A16 A17).
Qed.
Lemma block_tokens_rename l : block_tokens (rename_block r l) = rename (block_tokens l).
Proof. apply flat_map_rename, all_same, tokens_rename_all. Qed.

(** ** The visitor *)
Section Visit.
Context (O : oracles) (lookup : str -> option value) (reparse : kind -> list tt -> option (list tt)).
Context (Hv : forall l, parse_lit_str O [TLit (on_literals r l)] = parse_lit_str O [TLit l]).
Context (Hl : forall x, lookup (r x) = lookup x) (Hx : forall x v, lookup x = Some v -> r x = x /\ rename (to_tokens v) = to_tokens v).
Context (Hi : forall ts, parse_ident O (rename ts) = option_map r (parse_ident O ts)).
Context (Hr : forall k ts, reparse k (rename ts) = option_map rename (reparse k ts)).

Lemma visit_node_rename k ts : visit_node O lookup reparse k (rename ts) = rmap rename (visit_node O lookup reparse k ts).
Proof. apply substitute_rename; [exact K|exact Hv|exact Hl|exact Hx|apply Hr]. Qed.
Lemma visit_name_rename x : visit_name O lookup (r x) = rmap r (visit_name O lookup x).
Proof. apply (substitute_rename r O lookup K Hv Hl Hx r (parse_ident O) Hi [TIdent x]). Qed.
Lemma visit_opt_rename {A} (f : A -> res A) (h : A -> A) x : (forall a, f (h a) = rmap h (f a)) ->
  visit_opt f (option_map h x) = rmap (option_map h) (visit_opt f x).
Proof. intros H. destruct x as [a|]; [|reflexivity]. cbn [option_map visit_opt]. apply (rbind h); [apply H|reflexivity]. Qed.
Lemma parse_outer_rename k : forall ts, List.length ts <= k -> parse_outer reparse (rename ts) = option_map (rename_attrs r) (parse_outer reparse ts).
Proof.
  induction k as [|k IH]; intros ts Hk; [destruct ts; [reflexivity|cbn in Hk; lia]|].
  destruct ts as [|[?|c j|?|? ?] [|[?|? ?|?|[] m] rest]]; try reflexivity.
  cbn [SpecRename.rename map SpecRename.rename1 parse_outer]. destruct (N.eqb c 35); [|reflexivity].
  change (map rename1 m) with (rename m). rewrite Hr. change (map rename1 rest) with (rename rest).
  rewrite IH by (cbn in Hk; lia). destruct (reparse KMeta m); [|reflexivity]. destruct (parse_outer reparse rest); reflexivity.
Qed.
Lemma visit_attrs_rename l : visit_attrs O lookup reparse (rename_attrs r l) = rmap (rename_attrs r) (visit_attrs O lookup reparse l).
Proof.
  unfold visit_attrs. rewrite attrs_tokens_rename. apply (substitute_rename r O lookup K Hv Hl Hx (rename_attrs r)).
  intros ts; apply (parse_outer_rename _ ts (le_n _)).
Qed.
Ltac bind h lem := apply (rbind h); [apply lem|intros].
Lemma visit_field_rename f : visit_field O lookup reparse (rename_field r f) = rmap (rename_field r) (visit_field O lookup reparse f).
Proof.
  unfold visit_field. bind (rename_attrs r) visit_attrs_rename. bind (SpecRename.rename r) visit_node_rename.
  apply (rbind (option_map r)); [apply visit_opt_rename, visit_name_rename|intros]. bind (SpecRename.rename r) visit_node_rename. reflexivity.
Qed.
Lemma visit_fields_rename f : visit_fields O lookup reparse (rename_fields r f) = rmap (rename_fields r) (visit_fields O lookup reparse f).
Proof.
  destruct f as [l t|l t|]; [| |reflexivity]; cbn [rename_fields visit_fields];
    (apply (rbind (map (rename_field r))); [apply mapM_rename, all_same, visit_field_rename|reflexivity]).
Qed.
Lemma visit_generics_rename x : visit_generics O lookup reparse (rename_generics r x) = rmap (rename_generics r) (visit_generics O lookup reparse x).
Proof. unfold visit_generics. bind (SpecRename.rename r) visit_node_rename. reflexivity. Qed.
Lemma visit_variant_rename v : visit_variant O lookup reparse (rename_variant r v) = rmap (rename_variant r) (visit_variant O lookup reparse v).
Proof.
  unfold visit_variant. bind (rename_attrs r) visit_attrs_rename. bind r visit_name_rename. bind (rename_fields r) visit_fields_rename.
  apply (rbind (option_map rename)); [apply visit_opt_rename, visit_node_rename|reflexivity].
Qed.
Lemma visit_other_rename ts : visit_other_stmt O lookup reparse (rename ts) = rmap rename (visit_other_stmt O lookup reparse ts).
Proof.
  unfold visit_other_stmt. change [TGroup Brace (rename ts)] with (rename [TGroup Brace ts]).
  rewrite Hr. destruct (reparse KBlock _) as [b|]; [|reflexivity]. cbn [option_map]. bind (SpecRename.rename r) visit_node_rename.
  destruct a as [|[?|? ?|?|[] ?] [|? ?]]; reflexivity.
Qed.
Lemma visit_abi_rename l : visit_abi O lookup l = rmap (fun x => x) (visit_abi O lookup l).
Proof. destruct (visit_abi O lookup l); reflexivity. Qed.
Ltac revisit :=
  fold (visit_item O lookup reparse) (visit_stmt O lookup reparse) (visit_trait_item O lookup reparse) (visit_impl_item O lookup reparse).
Lemma visit_rename_all :
  (forall i, visit_item O lookup reparse (rename_item r i) = rmap (rename_item r) (visit_item O lookup reparse i)) /\
  (forall s, visit_stmt O lookup reparse (rename_stmt r s) = rmap (rename_stmt r) (visit_stmt O lookup reparse s)).
Proof.
  pose (Pi := fun i => visit_item O lookup reparse (rename_item r i) = rmap (rename_item r) (visit_item O lookup reparse i)).
  pose (Ps := fun s => visit_stmt O lookup reparse (rename_stmt r s) = rmap (rename_stmt r) (visit_stmt O lookup reparse s)).
  pose (Pt := fun i => visit_trait_item O lookup reparse (rename_trait_item r i) = rmap (rename_trait_item r) (visit_trait_item O lookup reparse i)).
  pose (Pm := fun i => visit_impl_item O lookup reparse (rename_impl_item r i) = rmap (rename_impl_item r) (visit_impl_item O lookup reparse i)).
  assert (H : (forall i, Pi i) /\ (forall s, Ps s)); [|exact H].
  assert (A1 : forall a v s b, Forall Ps b -> Pi (IFn a v s b)).
  { intros a v s b Hb. unfold Pi. cbn [rename_item visit_item]. refold. revisit. bind (rename_attrs r) visit_attrs_rename. do 2 bind (SpecRename.rename r) visit_node_rename.
    apply (rbind (map (rename_stmt r))); [apply mapM_rename, Hb|reflexivity]. }
  assert (A2 : forall a v x p f, Pi (IStruct a v x p f)).
  { intros. unfold Pi. cbn [rename_item visit_item]. refold. revisit. bind (rename_attrs r) visit_attrs_rename. bind (SpecRename.rename r) visit_node_rename. bind r visit_name_rename.
    bind (rename_generics r) visit_generics_rename. bind (rename_fields r) visit_fields_rename. reflexivity. }
  assert (A3 : forall a v x p l t, Pi (IEnum a v x p l t)).
  { intros. unfold Pi. cbn [rename_item visit_item]. refold. revisit. bind (rename_attrs r) visit_attrs_rename. bind (SpecRename.rename r) visit_node_rename. bind r visit_name_rename.
    bind (rename_generics r) visit_generics_rename. apply (rbind (map (rename_variant r))); [apply mapM_rename, all_same, visit_variant_rename|reflexivity]. }
  assert (A4 : forall a v x p l t, Pi (IUnion a v x p l t)).
  { intros. unfold Pi. cbn [rename_item visit_item]. refold. revisit. bind (rename_attrs r) visit_attrs_rename. bind (SpecRename.rename r) visit_node_rename. bind r visit_name_rename.
    bind (rename_generics r) visit_generics_rename. apply (rbind (map (rename_field r))); [apply mapM_rename, all_same, visit_field_rename|reflexivity]. }
  assert (A5 : forall a v u au x p s t l, Forall Pt l -> Pi (ITrait a v u au x p s t l)).
  { intros a v u au x p s t l Hl'. unfold Pi. cbn [rename_item visit_item]. refold. revisit. bind (rename_attrs r) visit_attrs_rename. bind (SpecRename.rename r) visit_node_rename. bind r visit_name_rename.
    bind (rename_generics r) visit_generics_rename. apply (rbind (map rename)); [apply mapM_rename, all_same; intros; apply visit_node_rename|intros].
    apply (rbind (map (rename_trait_item r))); [apply mapM_rename, Hl'|reflexivity]. }
  assert (A6 : forall a d u p tr ty l, Forall Pm l -> Pi (IImpl a d u p tr ty l)).
  { intros a d u p tr ty l Hl'. unfold Pi. cbn [rename_item visit_item]. refold. revisit. bind (rename_attrs r) visit_attrs_rename. bind (rename_generics r) visit_generics_rename.
    apply (rbind (option_map (rename_impl_trait r))); [apply visit_opt_rename; intros bp; bind (SpecRename.rename r) visit_node_rename; reflexivity|intros].
    bind (SpecRename.rename r) visit_node_rename. apply (rbind (map (rename_impl_item r))); [apply mapM_rename, Hl'|reflexivity]. }
  assert (A7 : forall a v u x l, Forall Pi l -> Pi (IMod a v u x (Some l))).
  { intros a v u x l Hl'. unfold Pi. cbn [rename_item visit_item]. refold. revisit. bind (rename_attrs r) visit_attrs_rename. bind (SpecRename.rename r) visit_node_rename. bind r visit_name_rename.
    apply (rbind (option_map (map (rename_item r)))); [apply (rbind (map (rename_item r))); [apply mapM_rename, Hl'|reflexivity]|]. intros [|]; reflexivity. }
  assert (A8 : forall a v u x, Pi (IMod a v u x None)).
  { intros. unfold Pi. cbn [rename_item visit_item]. refold. revisit. bind (rename_attrs r) visit_attrs_rename. bind (SpecRename.rename r) visit_node_rename. bind r visit_name_rename. reflexivity. }
  assert (A9 : forall a u abi l, Pi (IForeign a u abi l)).
  { intros. unfold Pi. cbn [rename_item visit_item]. refold. revisit. bind (rename_attrs r) visit_attrs_rename.
    apply (rbind (fun x => x)); [destruct (visit_opt _ abi); reflexivity|intros].
    apply (rbind (map rename)); [apply mapM_rename, all_same; intros; apply visit_node_rename|reflexivity]. }
  assert (A10 : forall ts, Pi (IOther ts)).
  { intros. unfold Pi. cbn [rename_item visit_item]. refold. revisit. bind (SpecRename.rename r) visit_node_rename. reflexivity. }
  assert (A12 : forall ts, Ps (SOther ts)).
  { intros. unfold Ps. cbn [rename_stmt visit_stmt]. refold. revisit. bind (SpecRename.rename r) visit_other_rename. reflexivity. }
  assert (A11 : forall i, Pi i -> Ps (SItem i)).
  { intros i Hi'. destruct i; try (unfold Ps; cbn [rename_stmt visit_stmt rename_item]; refold; revisit;
      apply (rbind (rename_item r)); [exact Hi'|reflexivity]). exact (A12 ts). }
  assert (A13 : forall a s b, Forall Ps b -> Pt (TFn a s (Some b))).
  { intros a s b Hb. unfold Pt. cbn [rename_trait_item visit_trait_item]. refold. revisit. bind (rename_attrs r) visit_attrs_rename. bind (SpecRename.rename r) visit_node_rename.
    apply (rbind (option_map (map (rename_stmt r)))); [apply (rbind (map (rename_stmt r))); [apply mapM_rename, Hb|reflexivity]|]. intros [|]; reflexivity. }
  assert (A14 : forall a s, Pt (TFn a s None)).
  { intros. unfold Pt. cbn [rename_trait_item visit_trait_item]. refold. revisit. bind (rename_attrs r) visit_attrs_rename. bind (SpecRename.rename r) visit_node_rename. reflexivity. }
  assert (A15 : forall k ts, Pt (TOther k ts)).
  { intros. unfold Pt. cbn [rename_trait_item visit_trait_item]. refold. revisit. bind (SpecRename.rename r) visit_node_rename. reflexivity. }
  assert (A16 : forall a v d s b, Forall Ps b -> Pm (MFn a v d s b)).
  { intros a v d s b Hb. unfold Pm. cbn [rename_impl_item visit_impl_item]. refold. revisit. bind (rename_attrs r) visit_attrs_rename. do 2 bind (SpecRename.rename r) visit_node_rename.
    apply (rbind (map (rename_stmt r))); [apply mapM_rename, Hb|reflexivity]. }
  assert (A17 : forall k ts, Pm (MOther k ts)).
  { intros. unfold Pm. cbn [rename_impl_item visit_impl_item]. refold. revisit. bind (SpecRename.rename r) visit_node_rename. reflexivity. }
  split.
  - exact (item_ind' Pi Ps Pt Pm A1 A2 A3 A4 A5 A6 A7 A8 A9 A10 A11 A12 A13 A14 A15 A16 A17).
  - exact (stmt_ind' Pi Ps Pt Pm A1 A2 A3 A4 A5 A6 A7 A8 A9 A10 A11 A12 A13 A14 A15 A16 A17).
Qed.
Lemma visit_block_rename l : visit_block O lookup reparse (rename_block r l) = rmap (rename_block r) (visit_block O lookup reparse l).
Proof. apply mapM_rename, all_same, visit_rename_all. Qed.
End Visit.

(** ** Deprecations *)
Lemma spared_eqb w : In w printed_words -> forall x, str_eqb (r x) w = str_eqb x w.
Proof.
  intros H x. assert (E0 := proj1 (Forall_forall _ _) W _ H x). destruct (str_eqb x w) eqn:E.
  - apply str_eqb_eq in E. apply str_eqb_eq, E0, E.
  - destruct (str_eqb (r x) w) eqn:F; [|reflexivity]. apply str_eqb_eq in F. apply E0 in F. apply str_eqb_eq in F. congruence.
Qed.
Lemma names_deprecated_rename m : names_deprecated (rename m) = names_deprecated m.
Proof.
  assert (E := spared_eqb (txt "deprecated") ltac:(known)).
  destruct m as [|[x|c j|l|d ts] [|[y|c' j'|l'|d' ts'] [|[z|c2 j2|l2|d2 ts2] m]]]; try reflexivity; cbn [SpecRename.rename map SpecRename.rename1 names_deprecated];
    rewrite E; reflexivity.
Qed.
Lemma to_attribute_rename w : rename_attr r (to_attribute w) = to_attribute w.
Proof. unfold rename_attr, to_attribute. cbn [is_inner meta SpecRename.rename map SpecRename.rename1 kw sym]. rewrite !kw_rename, !K by known. reflexivity. Qed.
Lemma process_rename p ws a b : process_deprecations p ws (rename_attrs r a) b =
  (fst (process_deprecations p ws a b), rename_attrs r (snd (process_deprecations p ws a b))).
Proof.
  unfold process_deprecations. destruct (pop ws) as [[w ws']|]; [|reflexivity].
  assert (E : existsb (fun a => names_deprecated (meta a)) (rename_attrs r a) = existsb (fun a => names_deprecated (meta a)) a).
  { induction a as [|x a IH]; [reflexivity|]. cbn [rename_attrs map existsb]. f_equal; [|exact IH]. apply names_deprecated_rename. }
  rewrite E. destruct (_ || _); [reflexivity|]. cbn [fst snd]. unfold rename_attrs. rewrite map_app. cbn [map]. rewrite to_attribute_rename. reflexivity.
Qed.
Lemma each_rename (f : list warning -> tree -> list warning * tree) l :
  Forall (fun t => forall ws, f ws (rename_tree r t) = (fst (f ws t), rename_tree r (snd (f ws t)))) l ->
  forall ws, visit_each f ws (map (rename_tree r) l) = (fst (visit_each f ws l), map (rename_tree r) (snd (visit_each f ws l))).
Proof.
  induction 1 as [|t l Ht _ IH]; intros ws; [reflexivity|]. cbn [map visit_each]. rewrite Ht. destruct (f ws t) as [ws1 t']. cbn [fst snd].
  rewrite IH. destruct (visit_each f ws1 l) as [ws2 l']. reflexivity.
Qed.
Lemma visit_tree_rename p : forall t ws, visit_tree p ws (rename_tree r t) = (fst (visit_tree p ws t), rename_tree r (snd (visit_tree p ws t))).
Proof.
  induction t as [t|d l IH|a b l IH] using tree_ind'; intros ws; [reflexivity| |]; cbn [rename_tree visit_tree].
  - rewrite (each_rename _ _ IH). destruct (visit_each _ ws l) as [ws' l']. reflexivity.
  - rewrite process_rename. destruct (process_deprecations p ws a b) as [ws1 a']. cbn [fst snd]. rewrite (each_rename _ _ IH).
    destruct (visit_each _ ws1 l) as [ws2 l']. reflexivity.
Qed.
Lemma emit_rename t f : scope_emit t (map (rename_tree r) f) = map (rename_tree r) (scope_emit t f).
Proof.
  destruct t as [s|]; [|reflexivity]. cbn [scope_emit]. unfold emit. destruct (warnings s) as [|w ws]; [reflexivity|].
  rewrite (each_rename _ f); [reflexivity|]. apply all_same. intros x. apply visit_tree_rename.
Qed.
Lemma tree_tokens_rename : forall t, tree_tokens (rename_tree r t) = map rename1 (tree_tokens t).
Proof.
  induction t as [t|d l IH|a b l IH] using tree_ind'; [reflexivity| |]; cbn [rename_tree tree_tokens].
  - rewrite (flat_map_rename _ _ _ _ IH). reflexivity.
  - rewrite attrs_tokens_rename, (flat_map_rename _ _ _ _ IH), map_app. reflexivity.
Qed.
Lemma forest_tokens_rename f : forest_tokens (map (rename_tree r) f) = rename (forest_tokens f).
Proof. apply flat_map_rename, all_same, tree_tokens_rename. Qed.
End Rename.
