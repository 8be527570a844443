(** The external functions of RustInstance.v on renamed tokens. *)
From Coq Require Import String Lia.
From Verif Require Import Base BaseFacts Token Types Values Item Deprecation Interpreter Parse Concrete ConcreteEq RustGrammar RustInstance
  SpanDressPrint SpecRename RenameWalk RenameItem RustRename.
Open Scope list_scope.

Section Rename.
Context (r : naming) (W : Forall (spared r) grammar_words) (K : forall v p, on_literals r (LStr v p) = LStr v p) (I : forall x y, r x = r y -> x = y) (J : forall l m, on_literals r l = on_literals r m -> l = m).
Notation rename := (rename r).
Notation rename1 := (rename1 r).

Lemma words_printed : Forall (spared r) printed_words.
Proof.
  apply Forall_forall. intros w Hw. apply (proj1 (Forall_forall _ _) W).
  assert (E : forallb is_grammar_word printed_words = true) by (vm_compute; reflexivity).
  pose proof (proj1 (forallb_forall _ _) E w Hw) as H. apply existsb_exists in H as (w' & Hi & E'). apply str_eqb_eq in E'. subst w'. exact Hi.
Qed.

(** ** Equality of tokens *)
Lemma rename1_injective : forall a b, rename1 a = rename1 b -> a = b.
Proof.
  fix F 1. intros [x|c j|l|d ts] [y|c' j'|l'|d' ts'] H; cbn [SpecRename.rename1] in H; try discriminate; try congruence.
  - injection H as H. f_equal. apply I, H.
  - injection H as H. f_equal. apply J, H.
  - injection H as <- H. f_equal. revert ts' H. induction ts as [|t ts IH]; intros [|t' ts'] H; try discriminate; [reflexivity|].
    cbn [map] in H. injection H as H1 H2. f_equal; [apply F, H1|apply IH, H2].
Qed.
Lemma tt_eqb_rename a b : tt_eqb (rename1 a) (rename1 b) = tt_eqb a b.
Proof.
  destruct (tt_eqb a b) eqn:E.
  - apply tt_eqb_eq in E. subst b. apply tt_eqb_refl.
  - destruct (tt_eqb (rename1 a) (rename1 b)) eqn:F; [|reflexivity]. apply tt_eqb_eq, rename1_injective in F. subst b. rewrite tt_eqb_refl in E. discriminate.
Qed.

(** ** The parsers *)
Lemma nt_rename n : follows r (nt_ n).
Proof.
  apply (f_go r W K J). intros b. unfold block_ok. rewrite (m_stmts r W K J). destruct (stmts depth b); reflexivity.
Qed.
Lemma items_rename k : makes r (map (rename_item r)) (items_ k).
Proof.
  induction k as [|k IH]; [intros ts; reflexivity|]. intros ts. cbn [items_].
  refine (m_whole_sequence r (rename_item r) _ _ _). apply (y_module_item r W K J); [apply nt_rename|apply (m_stmts r W K J)|exact IH].
Qed.
Lemma whole_rename f : follows r f -> forall ts, whole f (rename ts) = option_map rename (whole f ts).
Proof. intros F ts. unfold whole. rewrite (f_all r f F). destruct (all f ts); reflexivity. Qed.
Lemma rest_rename {A} (h : A -> A) f : yields r h f -> follows r (rest_of f).
Proof. intros F ts. unfold rest_of. rewrite F. destruct (f ts) as [[]|]; reflexivity. Qed.
Lemma reparse_rename k ts : rust_reparse k (rename ts) = option_map rename (rust_reparse k ts).
Proof.
  unfold rust_reparse. apply whole_rename. destruct k; try apply nt_rename; try apply (f_vis r W).
  - apply (f_opt r), nt_rename.
  - apply (rest_rename (rename_item r)), (y_module_item r W K J); [apply nt_rename|apply (m_stmts r W K J)|apply items_rename].
  - apply (rest_rename rename), (y_foreign_item r W), nt_rename.
  - apply (rest_rename (rename_trait_item r)), (y_trait_item r W K J); [apply nt_rename|apply (m_stmts r W K J)].
  - apply (rest_rename (rename_trait_item r)), (y_trait_item r W K J); [apply nt_rename|apply (m_stmts r W K J)].
  - apply (rest_rename (rename_trait_item r)), (y_trait_item r W K J); [apply nt_rename|apply (m_stmts r W K J)].
  - apply (rest_rename (rename_trait_item r)), (y_trait_item r W K J); [apply nt_rename|apply (m_stmts r W K J)].
  - apply (rest_rename (rename_impl_item r)), (y_impl_item r W K J); [apply nt_rename|apply (m_stmts r W K J)].
  - apply (rest_rename (rename_impl_item r)), (y_impl_item r W K J); [apply nt_rename|apply (m_stmts r W K J)].
  - apply (rest_rename (rename_impl_item r)), (y_impl_item r W K J); [apply nt_rename|apply (m_stmts r W K J)].
  - apply (rest_rename (rename_impl_item r)), (y_impl_item r W K J); [apply nt_rename|apply (m_stmts r W K J)].
Qed.

(** ** The trees of the deprecation service *)
Notation renamed := (map (rename_tree r)).
Lemma plain_renamed ts : renamed (plain_trees ts) = plain_trees (rename ts).
Proof. unfold plain_trees, SpecRename.rename. rewrite !map_map. reflexivity. Qed.
Lemma inner_deprecated a : has_inner_deprecated (rename_attrs r a) = has_inner_deprecated a.
Proof.
  unfold has_inner_deprecated. rewrite inner_rename. induction (inner a) as [|x l IH]; [reflexivity|]. cbn [rename_attrs map existsb]. 
  change (map (rename_attr r) l) with (rename_attrs r l). rewrite IH. cbn [rename_attr meta]. rewrite (names_deprecated_rename r words_printed). reflexivity.
Qed.
Lemma separated_renamed t l : renamed (separated_trees t l) = separated_trees t (map renamed l).
Proof.
  induction l as [|x l IH]; [reflexivity|]. destruct l as [|y l].
  - cbn. rewrite map_app. destruct t; reflexivity.
  - change (renamed (x ++ DTok (sym ",") :: separated_trees t (y :: l)) = renamed x ++ DTok (sym ",") :: separated_trees t (map renamed (y :: l))).
    rewrite map_app. cbn [map]. rewrite IH. reflexivity.
Qed.
Lemma field_renamed f : field_trees (rename_field r f) = renamed (field_trees f).
Proof.
  destruct f as [a v x t]. unfold field_trees. cbn [rename_field f_attrs f_vis f_ident f_ty map rename_tree]. rewrite plain_renamed, !rename_app.
  destruct x; reflexivity.
Qed.
Lemma fields_renamed f : fields_trees (rename_fields r f) = renamed (fields_trees f).
Proof.
  destruct f as [l t|l t|]; [| |reflexivity]; cbn [rename_fields fields_trees map rename_tree]; rewrite separated_renamed, !map_map;
    do 3 f_equal; apply map_ext; apply field_renamed.
Qed.
Lemma variant_renamed v : variant_trees (rename_variant r v) = renamed (variant_trees v).
Proof.
  destruct v as [a x f d]. unfold variant_trees. cbn [rename_variant v_attrs v_ident v_fields v_disc map rename_tree].
  rewrite fields_renamed, map_app, plain_renamed. destruct d; reflexivity.
Qed.
Lemma attributed_renamed ts : attributed (rename ts) = renamed (attributed ts).
Proof.
  unfold attributed. rewrite take_attrs_rename. destruct (take_attrs ts) as [a q]. cbn [both_attrs map rename_tree]. rewrite plain_renamed. reflexivity.
Qed.
Lemma flat_map_renamed {A} (f : A -> list tree) (h : A -> A) l :
  Forall (fun a => f (h a) = renamed (f a)) l -> flat_map f (map h l) = renamed (flat_map f l).
Proof. induction 1 as [|a l Ha _ IH]; [reflexivity|]. cbn [map flat_map]. rewrite map_app, Ha, IH. reflexivity. Qed.

Ltac known := repeat (first [left; reflexivity|right]).
Ltac refold := fold (rename_item r) (rename_stmt r) (rename_trait_item r) (rename_impl_item r).
Ltac words := unfold SpecRename.rename; rewrite ?(kw_if_rename r words_printed) by known; cbn [map SpecRename.rename1 kw]; rewrite ?(kw_rename r words_printed) by known; unfold kw.
Ltac parts := rewrite ?(outer_rename r), ?(inner_rename r), ?inner_deprecated, ?(attrs_tokens_rename r); repeat (progress (rewrite ?map_app; cbn [map rename_tree]; rewrite ?map_app, ?plain_renamed, ?rename_app)).
Lemma trees_renamed :
  (forall i, item_trees (rename_item r i) = renamed (item_trees i)) /\
  (forall s, stmt_trees (rename_stmt r s) = renamed (stmt_trees s)) /\
  (forall i, trait_item_trees (rename_trait_item r i) = renamed (trait_item_trees i)) /\
  (forall i, impl_item_trees (rename_impl_item r i) = renamed (impl_item_trees i)).
Proof.
  pose (Pi := fun i => item_trees (rename_item r i) = renamed (item_trees i)).
  pose (Ps := fun s => stmt_trees (rename_stmt r s) = renamed (stmt_trees s)).
  pose (Pt := fun i => trait_item_trees (rename_trait_item r i) = renamed (trait_item_trees i)).
  pose (Pm := fun i => impl_item_trees (rename_impl_item r i) = renamed (impl_item_trees i)).
  assert (H : (forall i, Pi i) /\ (forall s, Ps s) /\ (forall i, Pt i) /\ (forall i, Pm i));
    [|exact H].
  assert (A1 : forall a v s b, Forall Ps b -> Pi (IFn a v s b)).
  { intros a v s b Hb. unfold Pi. cbn [rename_item item_trees]. refold. rewrite (flat_map_renamed _ _ _ Hb). parts. reflexivity. }
  assert (A2 : forall a v x p f, Pi (IStruct a v x p f)).
  { intros a v x p f. unfold Pi. cbn [rename_item item_trees]. refold. rewrite fields_renamed. parts. words.
    destruct f as [l t|l t|]; cbn [rename_fields rename_generics g_params g_where]; rewrite ?map_app, ?plain_renamed, ?rename_app; reflexivity. }
  assert (A3 : forall a v x p l t, Pi (IEnum a v x p l t)).
  { intros. unfold Pi. cbn [rename_item item_trees]. refold. parts. words. rewrite separated_renamed, !map_map.
    rewrite (map_ext _ _ variant_renamed). reflexivity. }
  assert (A4 : forall a v x p l t, Pi (IUnion a v x p l t)).
  { intros. unfold Pi. cbn [rename_item item_trees]. refold. parts. words. rewrite separated_renamed, !map_map.
    rewrite (map_ext _ _ field_renamed). reflexivity. }
  assert (A5 : forall a v u au x p s t l, Forall Pt l -> Pi (ITrait a v u au x p s t l)).
  { intros a v u au x p s t l Hl. unfold Pi. cbn [rename_item item_trees]. refold. rewrite (flat_map_renamed _ _ _ Hl).
    assert (E : match map rename s with [] => [] | _ => sym ":" :: punctuated (fun b => b) (sym "+") t (map rename s) end =
      rename (match s with [] => [] | _ => sym ":" :: punctuated (fun b => b) (sym "+") t s end)).
    { unfold sym. rewrite (punctuated_rename r (fun b => b) rename) by reflexivity. destruct s; reflexivity. }
    rewrite E. parts. words. reflexivity. }
  assert (A6 : forall a d u p tr ty l, Forall Pm l -> Pi (IImpl a d u p tr ty l)).
  { intros a d u p tr ty l Hl. unfold Pi. cbn [rename_item item_trees]. refold. rewrite (flat_map_renamed _ _ _ Hl). parts. words.
    destruct tr as [[[] path]|]; cbn [option_map rename_impl_trait fst snd]; rewrite ?map_app; words; reflexivity. }
  assert (A7 : forall a v u x l, Forall Pi l -> Pi (IMod a v u x (Some l))).
  { intros a v u x l Hl. unfold Pi. cbn [rename_item item_trees]. refold. rewrite (flat_map_renamed _ _ _ Hl). parts. words. reflexivity. }
  assert (A8 : forall a v u x, Pi (IMod a v u x None)).
  { intros. unfold Pi. cbn [rename_item item_trees]. refold. parts. words. reflexivity. }
  assert (A9 : forall a u abi l, Pi (IForeign a u abi l)).
  { intros a u abi l. unfold Pi. cbn [rename_item item_trees]. refold.
    rewrite (flat_map_renamed attributed rename l) by (apply Forall_forall; intros; apply attributed_renamed). parts. words.
    destruct abi as [[v p]|]; cbn [map plain_trees rename_tree SpecRename.rename1]; rewrite ?K; reflexivity. }
  assert (A10 : forall ts, Pi (IOther ts)) by (intros; apply attributed_renamed).
  assert (A11 : forall i, Pi i -> Ps (SItem i)) by (intros i Hi; exact Hi).
  assert (A12 : forall ts, Ps (SOther ts)) by (intros; symmetry; apply plain_renamed).
  assert (A13 : forall a s b, Forall Ps b -> Pt (TFn a s (Some b))).
  { intros a s b Hb. unfold Pt. cbn [rename_trait_item trait_item_trees]. refold. rewrite (flat_map_renamed _ _ _ Hb). parts. reflexivity. }
  assert (A14 : forall a s, Pt (TFn a s None)).
  { intros. unfold Pt. cbn [rename_trait_item trait_item_trees]. refold. parts. reflexivity. }
  assert (A15 : forall k ts, Pt (TOther k ts)) by (intros; apply attributed_renamed).
  assert (A16 : forall a v d s b, Forall Ps b -> Pm (MFn a v d s b)).
  { intros a v d s b Hb. unfold Pm. cbn [rename_impl_item impl_item_trees]. refold. rewrite (flat_map_renamed _ _ _ Hb). parts. words. reflexivity. }
  assert (A17 : forall k ts, Pm (MOther k ts)) by (intros; symmetry; apply plain_renamed).
  split; [|split; [|split]].
  - exact (item_ind' Pi Ps Pt Pm A1 A2 A3 A4 A5 A6 A7 A8 A9 A10 A11 A12 A13 A14 A15 A16 A17).
  - exact (stmt_ind' Pi Ps Pt Pm A1 A2 A3 A4 A5 A6 A7 A8 A9 A10 A11 A12 A13 A14 A15 A16 A17).
  - exact (trait_item_ind' Pi Ps Pt Pm A1 A2 A3 A4 A5 A6 A7 A8 A9 A10 A11 A12 A13 A14 A15 A16 A17).
  - exact (impl_item_ind' Pi Ps Pt Pm A1 A2 A3 A4 A5 A6 A7 A8 A9 A10 A11 A12 A13 A14 A15 A16 A17).
Qed.
Lemma forest_rename ts : rust_forest (rename ts) = renamed (rust_forest ts).
Proof.
  unfold rust_forest. rewrite (m_stmts r W K J depth : makes r (rename_block r) stmts_). destruct (stmts_ ts) as [l|]; [|symmetry; apply plain_renamed]. cbn [option_map]. cbv zeta.
  unfold rename_block. rewrite (flat_map_renamed stmt_trees) by (apply Forall_forall; intros; apply trees_renamed).
  rewrite forest_tokens_rename.
  change (TGroup Brace (rename ?x)) with (rename1 (TGroup Brace x)). rewrite tt_eqb_rename.
  destruct (tt_eqb _ _); [reflexivity|symmetry; apply plain_renamed].
Qed.

Theorem rust_renames : renames r rust rust_parsers rust_syntax.
Proof.
  split.
  - exact words_printed.
  - exact K.
  - intros l. cbn [parse_lit_str rust ascii]. destruct l as [v p|d x|x]; [rewrite K; reflexivity| |];
      (destruct (on_literals r _) as [v p|d' x'|x'] eqn:E; [rewrite <- K in E; apply J in E; discriminate|reflexivity|reflexivity]).
  - intros ts. cbn [parse_ident rust]. destruct ts as [|[x|c j|l|d q] [|? ?]]; try reflexivity. cbn [SpecRename.rename map SpecRename.rename1]. rewrite (plain_rename r W). destruct (plain_ident x); reflexivity.
  - exact reparse_rename.
  - exact forest_rename.
  - intros ts. cbn [pre_block rust_parsers]. destruct ts as [|[x|c j|l|[] b] q]; try reflexivity. cbn [SpecRename.rename map SpecRename.rename1].
    change (map rename1 b) with (rename b). rewrite (m_stmts r W K J depth : makes r (rename_block r) stmts_). destruct (stmts_ b); reflexivity.
Qed.
End Rename.

(** ** Two names and two literals exchanged *)
Lemma swap_injective a b x y : swap a b x = swap a b y -> x = y.
Proof.
  unfold swap. destruct (str_eqb x a) eqn:Xa, (str_eqb y a) eqn:Ya; try (apply str_eqb_eq in Xa); try (apply str_eqb_eq in Ya); try congruence;
  destruct (str_eqb x b) eqn:Xb, (str_eqb y b) eqn:Yb; try (apply str_eqb_eq in Xb); try (apply str_eqb_eq in Yb); try congruence;
  intros H; subst; rewrite ?(proj2 (str_eqb_eq _ _) eq_refl) in *; congruence.
Qed.
Lemma swap_lit_injective a b x y : swap_lit a b x = swap_lit a b y -> x = y.
Proof.
  unfold swap_lit. destruct (lit_eqb x a) eqn:Xa, (lit_eqb y a) eqn:Ya; try (apply lit_eqb_eq in Xa); try (apply lit_eqb_eq in Ya); try congruence;
  destruct (lit_eqb x b) eqn:Xb, (lit_eqb y b) eqn:Yb; try (apply lit_eqb_eq in Xb); try (apply lit_eqb_eq in Yb); try congruence;
  intros H; subst; rewrite ?lit_eqb_refl in *; congruence.
Qed.
Lemma swap_spares a b l m w : w <> a -> w <> b -> spared (exchange a b l m) w.
Proof.
  intros A B x. cbn [exchange on_idents]. unfold swap. destruct (str_eqb x a) eqn:Xa; [apply str_eqb_eq in Xa; split; congruence|].
  destruct (str_eqb x b) eqn:Xb; [apply str_eqb_eq in Xb; split; congruence|]. reflexivity.
Qed.
Theorem swap_renames a b l m : ~ In a grammar_words -> ~ In b grammar_words -> (forall v p, l <> LStr v p) -> (forall v p, m <> LStr v p) ->
  renames (exchange a b l m) rust rust_parsers rust_syntax.
Proof.
  intros A B L M. apply rust_renames.
  - apply Forall_forall. intros w Hw. apply swap_spares; intros ->; auto.
  - intros v p. cbn [exchange on_literals]. unfold swap_lit. destruct (lit_eqb (LStr v p) l) eqn:E; [apply lit_eqb_eq in E; subst l; exfalso; eapply L; reflexivity|].
    destruct (lit_eqb (LStr v p) m) eqn:F; [apply lit_eqb_eq in F; subst m; exfalso; eapply M; reflexivity|reflexivity].
  - apply swap_injective.
  - apply swap_lit_injective.
Qed.
