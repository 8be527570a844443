(** Unused definitions, the order of definitions, and blocks statement by statement. *)
From Coq Require Import String Permutation.
From Verif Require Import Base BaseFacts Token Types Values Ast Env Item FormatString SubstituteIdents AliasSubstitution Interpreter Parse Macro
  SpecPrograms SpecFormat SpecSubst SpecElab SpecItem SpecMacro SpecOutcome SpecRepro SpecParse SpecUnroll SpecOrder
  ElabFacts ElabProofs FormatProofs WalkerProofs SubstFacts VisitorTotal NamingProofs OutcomeProofs InterpreterProofs MacroProofs ReproProofs UnrollProofs.
Open Scope list_scope.

(** ** Definitions *)
Lemma elab_items_ext (S : str -> Prop) env items : forall G G',
  Forall (fun it => S (fst it) /\ forall x, In x (mentions (snd it)) -> S x) items ->
  (forall x, S x -> assoc_str x G = assoc_str x G') -> elab_items env G items = elab_items env G' items.
Proof.
  induction items as [|[n e] items IH]; intros G G' HF HG; [reflexivity|]. inversion HF as [|? ? (Hn & He) HF']; subst. cbn [fst snd] in *. cbn [elab_items].
  rewrite (elab_mentions env e G G') by auto. destruct (elab env G' e None) as [[te c]|]; [|reflexivity]. rewrite (HG n Hn).
  destruct (assoc_str n G'); [reflexivity|]. refine (f_equal (fun r => bind r (fun r => Ok ((n, te) :: r))) (IH ((n, target_of te) :: G) ((n, target_of te) :: G') HF' _)).
  intros x Hx. cbn [assoc_str]. destruct (str_eqb _ _); auto.
Qed.
Lemma run_items_ext (S : str -> Prop) O seed tis : forall ctx ctx',
  Forall (fun it => forall x, In x (tmentions (snd it)) -> S x) tis ->
  (forall x, S x -> assoc_str x ctx = assoc_str x ctx') -> run_items O seed ctx tis = run_items O seed ctx' tis.
Proof.
  induction tis as [|[n te] tis IH]; intros ctx ctx' HF HG; [reflexivity|]. inversion HF as [|? ? He HF']; subst. cbn [fst snd] in *. cbn [run_items].
  rewrite (run_mentions O seed te ctx ctx') by auto. destruct (SpecElab.run O seed ctx' te) as [v| |]; try reflexivity. cbn [bind].
  rewrite (IH ((n, v) :: ctx) ((n, v) :: ctx') HF'); [reflexivity|]. intros x Hx. cbn [assoc_str]. destruct (str_eqb _ _); auto.
Qed.
Lemma elab_items_mentions (S : str -> Prop) env items : forall G tis, elab_items env G items = Ok tis ->
  Forall (fun it => forall x, In x (mentions (snd it)) -> S x) items -> Forall (fun it => forall x, In x (tmentions (snd it)) -> S x) tis.
Proof.
  induction items as [|[n e] items IH]; intros G tis H HF; cbn [elab_items] in H; [injection H as <-; constructor|].
  inversion HF as [|? ? He HF']; subst. destruct (elab env G e None) as [[te c]|] eqn:Ee; [|discriminate]. destruct (assoc_str n G); [discriminate|].
  apply bind_Ok in H as (t & H1 & H2). injection H2 as <-. constructor; [|eapply IH; eassumption]. cbn [snd] in *.
  intros x Hx. apply He. eapply elab_tmentions; eassumption.
Qed.

Lemma without_app a l l' : bindings_without a (l ++ l') = bindings_without a l ++ bindings_without a l'.
Proof. apply filter_app. Qed.
Lemma without_none a bs : ~ In a (map fst bs) -> bindings_without a bs = bs.
Proof.
  induction bs as [|[x v] bs IH]; intros H; [reflexivity|]. cbn [bindings_without filter fst map In] in *. destruct (str_eqb x a) eqn:E.
  - apply str_eqb_eq in E. tauto.
  - cbn [negb]. f_equal. apply IH. tauto.
Qed.
Lemma without_one a v : bindings_without a [(a, v)] = [].
Proof. unfold bindings_without. cbn [filter fst]. rewrite str_eqb_refl. reflexivity. Qed.
Lemma without_lookup a bs x : x <> a -> assoc_str x (bindings_without a bs) = assoc_str x bs.
Proof.
  intros Hx. induction bs as [|[y v] bs IH]; [reflexivity|]. unfold bindings_without in *. cbn [filter fst assoc_str]. destruct (str_eqb y a) eqn:E; cbn [negb].
  - apply str_eqb_eq in E as ->. destruct (str_eqb x a) eqn:E; [apply str_eqb_eq in E; contradiction|exact IH].
  - cbn [assoc_str]. rewrite IH. reflexivity.
Qed.

Lemma unused_definition O env pre a e post b1 : bindings O env (pre ++ [(a, e)]) = Ok b1 -> items_without a post ->
  bindings O env (pre ++ post) = let! bs := bindings O env (pre ++ (a, e) :: post) in Ok (bindings_without a bs).
Proof.
  intros H Hw. unfold bindings in *. apply bind_Ok in H as (t & H1 & H2).
  assert (Hnd := elab_items_NoDup _ _ _ _ H1). destruct Hnd as (Hnd & _).
  change (pre ++ (a, e) :: post) with (pre ++ [(a, e)] ++ post). rewrite (app_assoc pre), (elab_items_app _ (pre ++ [(a, e)])), H1. cbn [bind].
  rewrite elab_items_app in H1 |- *. apply bind_Ok in H1 as (t1 & H1 & H3). rewrite H1. cbn [bind].
  apply bind_Ok in H3 as (ta & H3 & H4). injection H4 as <-. cbn [elab_items] in H3.
  destruct (elab env (tenv_of t1 ++ []) e None) as [[te c]|]; [|discriminate]. destruct (assoc_str a _) eqn:Ea; [discriminate|]. injection H3 as <-.
  assert (HG : forall x, x <> a -> assoc_str x (tenv_of (t1 ++ [(a, te)]) ++ []) = assoc_str x (tenv_of t1 ++ [])).
  { intros x Hx. unfold tenv_of. rewrite map_app, rev_app_distr. cbn. destruct (str_eqb x a) eqn:E; [apply str_eqb_eq in E; contradiction|reflexivity]. }
  assert (Hw1 : Forall (fun it : spec_item => fst it <> a /\ forall x, In x (mentions (snd it)) -> x <> a) post).
  { eapply Forall_impl; [|exact Hw]. intros it (Hn & Hm). split; [exact Hn|]. intros x Hx ->. exact (Hm Hx). }
  pose proof (elab_items_ext (fun x => x <> a) env post _ _ Hw1 HG) as E1. unfold alias in *. rewrite E1.
  destruct (elab_items env (tenv_of t1 ++ []) post) as [t2| |] eqn:E2; cbn [bind]; try reflexivity.
  rewrite run_items_app in H2. apply bind_Ok in H2 as (r1 & H2 & H5). apply bind_Ok in H5 as (ra & H5 & H6). injection H6 as <-.
  cbn [run_items] in H5. apply bind_Ok in H5 as (v & H5 & H6). injection H6 as <-.
  rewrite <- (app_assoc t1 [(a, te)]), !run_items_app, H2. cbn [bind app run_items]. rewrite H5. cbn [bind].
  assert (Hm : Forall (fun it => forall x, In x (tmentions (snd it)) -> x <> a) t2).
  { eapply (elab_items_mentions (fun x => x <> a)); [exact E2|]. eapply Forall_impl; [|exact Hw1]. intros it (_ & Hm). exact Hm. }
  rewrite (run_items_ext (fun x => x <> a) O (e_seed env) t2 ((a, v) :: rev r1 ++ []) (rev r1 ++ []) Hm).
  2:{ intros x Hx. cbn [assoc_str]. destruct (str_eqb x a) eqn:E; [apply str_eqb_eq in E; contradiction|reflexivity]. }
  destruct (run_items O (e_seed env) (rev r1 ++ []) t2) as [b2| |] eqn:E3; cbn [bind]; try reflexivity.
  f_equal. change ((a, v) :: b2) with ([(a, v)] ++ b2). rewrite !without_app, without_one. cbn [app].
  rewrite !without_none; [reflexivity| |].
  - rewrite (run_items_names _ _ _ _ _ E3), (elab_items_names _ _ _ _ E2). intros Hin. apply in_map_iff in Hin as (it & Ha & Hin).
    unfold items_without in Hw. rewrite Forall_forall in Hw. destruct (Hw _ Hin) as (Hn & _). contradiction.
  - rewrite (run_items_names _ _ _ _ _ H2), (elab_items_names _ _ _ _ H1). intros Hin.
    rewrite map_app in Hnd. cbn [map fst] in Hnd. apply NoDup_remove_2 in Hnd. rewrite app_nil_r in Hnd. contradiction.
Qed.

(** Exchange of neighbours. *)
Lemma exchanged O env pre d d' post bs : independent d d' -> bindings O env (pre ++ d :: d' :: post) = Ok bs ->
  exists bs', bindings O env (pre ++ d' :: d :: post) = Ok bs' /\ Permutation bs bs' /\ (forall x, assoc_str x bs = assoc_str x bs').
Proof.
  destruct d as [a e], d' as [b e']. intros (Hi1 & Hi2) H. cbn [fst snd] in *. unfold bindings in *. apply bind_Ok in H as (t & H1 & H2).
  rewrite elab_items_app in H1 |- *. apply bind_Ok in H1 as (t1 & H1 & H3). rewrite H1. cbn [bind]. apply bind_Ok in H3 as (tr & H3 & E). injection E as <-.
  set (G := tenv_of t1 ++ []) in *. cbn [elab_items] in H3.
  destruct (elab env G e None) as [[te c]|] eqn:Ee; [|discriminate]. destruct (assoc_str a G) eqn:Ea; [discriminate|].
  apply bind_Ok in H3 as (tr1 & H3 & E). injection E as <-. 
  assert (Ee' : elab env ((a, target_of te) :: G) e' None = elab env G e' None).
  { apply elab_mentions. intros x Hx. cbn [assoc_str]. destruct (str_eqb x a) eqn:E; [apply str_eqb_eq in E as ->; contradiction|reflexivity]. }
  rewrite Ee' in H3. destruct (elab env G e' None) as [[te' c']|] eqn:Ee1; [|discriminate].
  cbn [assoc_str] in H3. destruct (str_eqb b a) eqn:Eba; [discriminate|]. destruct (assoc_str b G) eqn:Eb; [discriminate|].
  assert (Eab : str_eqb a b = false). { destruct (str_eqb a b) eqn:E; [|reflexivity]. apply str_eqb_eq in E as ->. rewrite str_eqb_refl in Eba. discriminate. }
  apply bind_Ok in H3 as (t2 & H3 & E). injection E as <-.
  cbn [elab_items]. rewrite Ee1, Eb.
  assert (Ee2 : elab env ((b, target_of te') :: G) e None = elab env G e None).
  { apply elab_mentions. intros x Hx. cbn [assoc_str]. destruct (str_eqb x b) eqn:E; [apply str_eqb_eq in E as ->; contradiction|reflexivity]. }
  rewrite Ee2, Ee. cbn [assoc_str]. rewrite Eab, Ea.
  rewrite (elab_items_ext (fun _ => True) env post ((a, target_of te) :: (b, target_of te') :: G) ((b, target_of te') :: (a, target_of te) :: G)).
  2:{ apply Forall_forall. tauto. }
  2:{ intros x _. cbn [assoc_str]. destruct (str_eqb x a) eqn:E1, (str_eqb x b) eqn:E2; try reflexivity.
      apply str_eqb_eq in E1 as ->. congruence. }
  rewrite H3. cbn [bind]. rewrite run_items_app in H2. apply bind_Ok in H2 as (r1 & H2 & H5). rewrite run_items_app, H2. cbn [bind].
  apply bind_Ok in H5 as (r2 & H5 & E). injection E as <-. set (C := rev r1 ++ []) in *. cbn [run_items] in H5.
  apply bind_Ok in H5 as (v & Hv & H5). apply bind_Ok in H5 as (r3 & H5 & E). injection E as <-.
  apply bind_Ok in H5 as (v' & Hv' & H5). apply bind_Ok in H5 as (r4 & H5 & E). injection E as <-.
  assert (R1 : SpecElab.run O (e_seed env) ((a, v) :: C) te' = SpecElab.run O (e_seed env) C te').
  { apply run_mentions. intros x Hx. apply (elab_tmentions _ _ _ _ _ _ Ee1) in Hx. cbn [assoc_str]. destruct (str_eqb x a) eqn:E; [apply str_eqb_eq in E as ->; contradiction|reflexivity]. }
  assert (R2 : SpecElab.run O (e_seed env) ((b, v') :: C) te = SpecElab.run O (e_seed env) C te).
  { apply run_mentions. intros x Hx. apply (elab_tmentions _ _ _ _ _ _ Ee) in Hx. cbn [assoc_str]. destruct (str_eqb x b) eqn:E; [apply str_eqb_eq in E as ->; contradiction|reflexivity]. }
  unfold alias in *. rewrite R1 in Hv'. cbn [run_items]. rewrite Hv'. cbn [bind]. rewrite R2, Hv. cbn [bind].
  assert (R3 : run_items O (e_seed env) ((a, v) :: (b, v') :: C) t2 = run_items O (e_seed env) ((b, v') :: (a, v) :: C) t2).
  { apply (run_items_ext (fun _ => True)); [apply Forall_forall; tauto|]. intros x _. cbn [assoc_str]. destruct (str_eqb x a) eqn:E1, (str_eqb x b) eqn:E2; try reflexivity. apply str_eqb_eq in E1 as ->. congruence. }
  rewrite R3.
  rewrite H5. cbn [bind]. eexists. split; [reflexivity|]. split.
  - apply Permutation_app_head. apply perm_swap.
  - intros x. clear -Eab. induction r1 as [|[y w] r1 IH]; cbn [app assoc_str].
    + destruct (str_eqb x a) eqn:E1, (str_eqb x b) eqn:E2; try reflexivity. apply str_eqb_eq in E1 as ->. congruence.
    + destruct (str_eqb x y); auto.
Qed.
Lemma rearranged_bindings O env items items' : rearranged items items' -> forall bs, bindings O env items = Ok bs ->
  exists bs', bindings O env items' = Ok bs' /\ Permutation bs bs' /\ (forall x, assoc_str x bs = assoc_str x bs').
Proof.
  induction 1 as [l|pre d d' post l Hi _ IH]; intros bs H; [exists bs; auto|].
  destruct (exchanged _ _ _ _ _ _ _ Hi H) as (b1 & H1 & Hp1 & Hl1). destruct (IH _ H1) as (b2 & H2 & Hp2 & Hl2).
  exists b2. split; [exact H2|]. split; [eapply perm_trans; eassumption|]. intros x. rewrite Hl1. apply Hl2.
Qed.
Lemma rearranged_app pre items items' : rearranged items items' -> rearranged (pre ++ items) (pre ++ items').
Proof.
  induction 1 as [l|p d d' post l Hi _ IH]; [constructor|]. rewrite app_assoc. apply rearranged_step; [exact Hi|]. rewrite <- app_assoc. exact IH.
Qed.
Lemma rearranged_trans a b c : rearranged a b -> rearranged b c -> rearranged a c.
Proof. induction 1; intros; [assumption|]. apply rearranged_step; auto. Qed.
Lemma rearranged_sym a b : rearranged a b -> rearranged b a.
Proof.
  induction 1 as [l|p d d' post l Hi _ IH]; [constructor|]. eapply rearranged_trans; [exact IH|].
  apply rearranged_step; [destruct Hi; split; assumption|]. constructor.
Qed.

(** ** Code *)
Section Code.
Context (O : oracles) (lookup lookup' : str -> option value) (ok : str -> Prop).
Hypothesis agree : forall x, ok x -> lookup x = lookup' x.

Lemma text_same s : text_over O ok s -> format_string O lookup s = format_string O lookup' s.
Proof.
  intros (ps & tail & Hw & -> & Hh). rewrite !format_meaning by assumption. unfold SpecFormat.meaning. f_equal. f_equal.
  clear Hw. induction ps as [|p ps IH]; [reflexivity|]. cbn [map]. rewrite IH by (intros t k H; apply (Hh t k); right; exact H). f_equal.
  destruct p as [t|t k|k]; try reflexivity. cbn [meaning1]. unfold vo. rewrite (agree _ (Hh t k (or_introl eq_refl))). reflexivity.
Qed.
Definition leaf_same (t : tt) : Prop :=
  match t with
  | TIdent x => tokens_of lookup x = tokens_of lookup' x
  | TLit l => literal_of O lookup l = literal_of O lookup' l
  | _ => True
  end.
Lemma leaf_over_same t : leaf_over O ok t -> leaf_same t.
Proof.
  destruct t as [x|c j|l|d ts]; cbn [leaf_over leaf_same]; intros H; try exact I.
  - unfold tokens_of. rewrite (agree _ H). reflexivity.
  - unfold literal_of. destruct (parse_lit_str O [TLit l]) as [[v s]|]; [|reflexivity]. rewrite (text_same v (H _ _ eq_refl)). reflexivity.
Qed.
Notation R := (replaced (tokens_of lookup) (literal_of O lookup)).
Notation R' := (replaced (tokens_of lookup') (literal_of O lookup')).
Notation S1 := (stages1 (tokens_of lookup) (literal_of O lookup)).
Notation S1' := (stages1 (tokens_of lookup') (literal_of O lookup')).
Lemma leaves_app a b : SpecSubst.leaves (a ++ b) = SpecSubst.leaves a ++ SpecSubst.leaves b.
Proof. apply flat_map_app. Qed.
Lemma token_same t : Forall leaf_same (leaves1 t) -> R t = R' t /\ S1 t = S1' t.
Proof.
  induction t as [x|c s|l|d ts IH] using tt_ind2; intros H.
  - inversion H; subst. cbn [leaf_same replaced stages1] in *. rewrite H2. auto.
  - auto.
  - inversion H; subst. cbn [leaf_same replaced stages1] in *. rewrite H2. auto.
  - cbn [leaves1] in H. assert (G : flat_map R ts = flat_map R' ts /\ stages (tokens_of lookup) (literal_of O lookup) ts = stages (tokens_of lookup') (literal_of O lookup') ts).
    { induction IH as [|t ts Ht _ IHa]; [auto|]. cbn [flat_map] in H. apply Forall_app in H as (H1 & H2). destruct (Ht H1) as (E1 & E2), (IHa H2) as (E3 & E4).
      cbn [flat_map stages]. rewrite E1, E2, E3, E4. auto. }
    destruct G as (G1 & G2). cbn [replaced stages1]. split; [rewrite G1; reflexivity|]. f_equal. exact G2.
Qed.
Lemma stream_same ts : Forall leaf_same (SpecSubst.leaves ts) ->
  substituted O lookup ts = substituted O lookup' ts /\ substitution_stages O lookup ts = substitution_stages O lookup' ts.
Proof.
  unfold substituted, substitution_stages, replaced_stream. induction ts as [|t ts IH]; [auto|]. intros H. cbn [SpecSubst.leaves flat_map] in H.
  apply Forall_app in H as (H1 & H2). destruct (token_same t H1) as (E1 & E2), (IH H2) as (E3 & E4). cbn [flat_map stages]. rewrite E1, E2, E3, E4. auto.
Qed.
Lemma idents_same {N} (parse : list tt -> option N) ts : Forall leaf_same (SpecSubst.leaves ts) ->
  substitute_idents O lookup parse ts = substitute_idents O lookup' parse ts.
Proof.
  intros H. destruct (stream_same ts H) as (E1 & E2). rewrite !substitute_idents_spec. unfold substituted, substitution_stages in *. rewrite E1, E2. reflexivity.
Qed.

(** Parts *)
Context (reparse : kind -> list tt -> option (list tt)).
Hypothesis F : faithful O reparse \/ forall x, lookup x = lookup' x.
Definition part_same (p : part) : Prop := Forall leaf_same (SpecSubst.leaves (part_code p)).
Notation same_parts l := (Forall part_same l).

Lemma everything_same ts : (forall x, lookup x = lookup' x) -> Forall leaf_same (SpecSubst.leaves ts).
Proof.
  intros H. apply Forall_forall. intros t _. destruct t as [x|c j|l|d m]; cbn [leaf_same]; try exact I.
  - unfold tokens_of. rewrite H. reflexivity.
  - unfold literal_of. destruct (parse_lit_str O [TLit l]) as [[v s]|]; [|reflexivity]. do 2 f_equal.
    destruct (every_string_has_pieces v) as (ps & tail & -> & Hw). rewrite !format_meaning by assumption.
    unfold SpecFormat.meaning. f_equal. f_equal. apply map_ext. intros p. destruct p; try reflexivity. cbn [meaning1]. unfold vo. rewrite H. reflexivity.
Qed.
Lemma other_same ts : Forall leaf_same (SpecSubst.leaves ts) -> visit_other_stmt O lookup reparse ts = visit_other_stmt O lookup' reparse ts.
Proof.
  intros H. unfold visit_other_stmt. destruct (reparse KBlock [TGroup Brace ts]) as [b|] eqn:Eb; [|reflexivity].
  unfold visit_node. rewrite (idents_same (reparse KBlock) b); [reflexivity|]. destruct F as [Ff|E]; [|apply everything_same; exact E].
  apply (faithful_node _ _ Ff) in Eb as ->. unfold SpecSubst.leaves. cbn [flat_map leaves1]. rewrite app_nil_r. exact H.
Qed.
Lemma mapM_same {A} (f g : A -> res A) l : Forall (fun x => f x = g x) l -> mapM f l = mapM g l.
Proof. induction 1 as [|x l H _ IH]; [reflexivity|]. cbn [mapM]. rewrite H, IH. reflexivity. Qed.
Lemma parts_in {A} (parts : A -> list part) (l : list A) : same_parts (flat_map parts l) -> Forall (fun x => same_parts (parts x)) l.
Proof. induction l as [|x l IH]; intros H; [constructor|]. cbn [flat_map] in H. apply Forall_app in H as (H1 & H2). constructor; auto. Qed.
Lemma parts_forall {A} (P : A -> Prop) (parts : A -> list part) l : Forall (fun x => same_parts (parts x) -> P x) l -> same_parts (flat_map parts l) -> Forall P l.
Proof. intros H H'. apply parts_in in H'. induction H as [|x l H _ IH]; [constructor|]. inversion H'; subst. constructor; auto. Qed.
Lemma nodes_same k l : same_parts (map (PartNode k) l) -> mapM (visit_node O lookup reparse k) l = mapM (visit_node O lookup' reparse k) l.
Proof. intros H. apply mapM_same. rewrite Forall_map in H. eapply Forall_impl; [|exact H]. intros ts Ht. apply idents_same, Ht. Qed.

Ltac parts H := repeat match type of H with Forall _ (_ :: _) => let h := fresh "Hp" in apply Forall_cons_iff in H as (h & H) end.
Lemma field_same f : same_parts (field_parts f) -> visit_field O lookup reparse f = visit_field O lookup' reparse f.
Proof.
  unfold field_parts. intros H. cbn [app] in H. parts H. apply Forall_app in H as (Hx & H). parts H. unfold visit_field, visit_attrs, visit_node.
  rewrite (idents_same _ _ Hp), (idents_same _ _ Hp0), (idents_same _ _ Hp1).
  destruct (f_ident f) as [x|]; [|reflexivity]. cbn [visit_opt optional] in *. inversion Hx; subst. unfold visit_name. rewrite (idents_same (parse_ident O) [TIdent x]) by assumption. reflexivity.
Qed.
Lemma fields_same l : same_parts (flat_map field_parts l) -> mapM (visit_field O lookup reparse) l = mapM (visit_field O lookup' reparse) l.
Proof. intros H. apply mapM_same. apply parts_in in H. eapply Forall_impl; [|exact H]. apply field_same. Qed.
Lemma all_fields_same f : same_parts (fields_parts f) -> visit_fields O lookup reparse f = visit_fields O lookup' reparse f.
Proof. destruct f; cbn [fields_parts visit_fields]; intros H; [rewrite (fields_same _ H); reflexivity..|reflexivity]. Qed.
Lemma variant_same v : same_parts (variant_parts v) -> visit_variant O lookup reparse v = visit_variant O lookup' reparse v.
Proof.
  unfold variant_parts. intros H. cbn [app] in H. parts H. apply Forall_app in H as (Hf & H). unfold visit_variant, visit_attrs, visit_name, visit_node.
  rewrite (idents_same _ _ Hp), (idents_same (parse_ident O) [TIdent (v_ident v)] Hp0), (all_fields_same _ Hf).
  destruct (v_disc v) as [e|]; [|reflexivity]. cbn [visit_opt optional] in *. inversion H; subst. rewrite (idents_same _ e) by assumption. reflexivity.
Qed.
Ltac known := unfold visit_generics, visit_attrs, visit_name, visit_node;
  repeat match goal with Hq : part_same (PartNode ?k ?ts) |- _ => rewrite (idents_same (reparse k) ts Hq); clear Hq
         | Hq : part_same (PartAttributes ?l) |- _ => rewrite (idents_same (parse_outer reparse) (attrs_tokens l) Hq); clear Hq
         | Hq : part_same (PartName ?x) |- _ => rewrite (idents_same (parse_ident O) [TIdent x] Hq); clear Hq end.

Definition QI (i : item) := same_parts (item_parts i) -> visit_item O lookup reparse i = visit_item O lookup' reparse i.
Definition QS (s : stmt) := same_parts (stmt_parts s) -> visit_stmt O lookup reparse s = visit_stmt O lookup' reparse s.
Definition QT (i : trait_item) := same_parts (trait_item_parts i) -> visit_trait_item O lookup reparse i = visit_trait_item O lookup' reparse i.
Definition QM (i : impl_item) := same_parts (impl_item_parts i) -> visit_impl_item O lookup reparse i = visit_impl_item O lookup' reparse i.
Lemma stmt_of_item i : QI i -> QS (SItem i).
Proof.
  intros IH H. assert (Hd : (exists ts, i = IOther ts) \/ (stmt_parts (SItem i) = item_parts i /\ forall l, visit_stmt O l reparse (SItem i) = let! i' := visit_item O l reparse i in Ok (SItem i')))
      by (destruct i; [right; split; reflexivity ..|left; eauto]).
  destruct Hd as [[ts ->]|[H1 H2]].
  - cbn [visit_stmt stmt_parts] in *. parts H. rewrite (other_same ts) by assumption. reflexivity.
  - rewrite !H2, IH; [reflexivity|]. rewrite <- H1. exact H.
Qed.
Lemma item_same i : QI i.
Proof.
  apply (item_ind' QI QS QT QM); unfold QI, QS, QT, QM; clear i.
  - intros a v s b IH H. rewrite !visit_fn. change (item_parts (IFn a v s b)) with ([PartAttributes a; PartNode KVis v; PartNode KSig s] ++ flat_map stmt_parts b) in H.
    cbn [app] in H. parts H. rewrite (mapM_same _ _ b (parts_forall _ _ _ IH H)). known. reflexivity.
  - intros a v x g f H. cbn [item_parts head_parts app] in H. parts H. cbn [visit_item]. rewrite (all_fields_same _ H). known. reflexivity.
  - intros a v x g l t H. cbn [item_parts head_parts app] in H. parts H. cbn [visit_item].
    rewrite (mapM_same (visit_variant O lookup reparse) (visit_variant O lookup' reparse) l) by (apply parts_in in H; eapply Forall_impl; [|exact H]; apply variant_same). known. reflexivity.
  - intros a v x g l t H. cbn [item_parts head_parts app] in H. parts H. cbn [visit_item]. rewrite (fields_same _ H). known. reflexivity.
  - intros a v u au x g s t l IH H. rewrite !visit_trait.
    change (item_parts (ITrait a v u au x g s t l)) with (head_parts a v x g ++ map (PartNode KBound) s ++ flat_map trait_item_parts l) in H.
    cbn [head_parts app] in H. parts H. apply Forall_app in H as (Hs & H). rewrite (nodes_same _ _ Hs), (mapM_same _ _ l (parts_forall _ _ _ IH H)). known. reflexivity.
  - intros a d u g tr ty l IH H. rewrite !visit_impl.
    change (item_parts (IImpl a d u g tr ty l)) with ([PartAttributes a; PartNode KGenerics (g_params g)] ++ optional (fun p => [PartNode KPath (snd p)]) tr ++ [PartNode KType ty] ++ flat_map impl_item_parts l) in H.
    cbn [app] in H. parts H. apply Forall_app in H as (Ht & H). parts H. rewrite (mapM_same _ _ l (parts_forall _ _ _ IH H)). known.
    destruct tr as [[bang p]|]; [|reflexivity]. cbn [visit_opt optional fst snd] in *. parts Ht. known. reflexivity.
  - intros a v u x l IH H. rewrite !visit_mod.
    change (item_parts (IMod a v u x (Some l))) with ([PartAttributes a; PartNode KVis v; PartName x] ++ flat_map item_parts l) in H.
    cbn [app] in H. parts H. rewrite (mapM_same _ _ l (parts_forall _ _ _ IH H)). known. reflexivity.
  - intros a v u x H. cbn [item_parts app] in H. parts H. cbn [visit_item]. known. reflexivity.
  - intros a u abi l H. cbn [item_parts app] in H. parts H. apply Forall_app in H as (Ha & H). cbn [visit_item]. rewrite (nodes_same _ _ H). known.
    destruct abi as [[w s]|]; [|reflexivity]. cbn [visit_opt optional fst snd] in *. parts Ha. unfold visit_abi. cbn [fst snd]. rewrite (idents_same (parse_lit_str O) [TLit (LStr w s)] Hp). reflexivity.
  - intros ts H. cbn [item_parts] in H. parts H. cbn [visit_item]. known. reflexivity.
  - apply stmt_of_item.
  - intros ts H. cbn [stmt_parts] in H. parts H. cbn [visit_stmt]. rewrite (other_same ts) by assumption. reflexivity.
  - intros a s b IH H. rewrite !visit_trait_fn.
    change (trait_item_parts (TFn a s (Some b))) with ([PartAttributes a; PartNode KSig s] ++ flat_map stmt_parts b) in H. cbn [app] in H. parts H.
    rewrite (mapM_same _ _ b (parts_forall _ _ _ IH H)). known. reflexivity.
  - intros a s H. cbn [trait_item_parts app] in H. parts H. cbn [visit_trait_item]. known. reflexivity.
  - intros k ts H. cbn [trait_item_parts] in H. parts H. cbn [visit_trait_item]. known. reflexivity.
  - intros a v d s b IH H. rewrite !visit_impl_fn.
    change (impl_item_parts (MFn a v d s b)) with ([PartAttributes a; PartNode KVis v; PartNode KSig s] ++ flat_map stmt_parts b) in H. cbn [app] in H. parts H.
    rewrite (mapM_same _ _ b (parts_forall _ _ _ IH H)). known. reflexivity.
  - intros k ts H. cbn [impl_item_parts] in H. parts H. cbn [visit_impl_item]. known. reflexivity.
Qed.
Lemma block_same l : same_parts (block_parts l) -> visit_block O lookup reparse l = visit_block O lookup' reparse l.
Proof.
  intros H. apply mapM_same. apply parts_in in H. eapply Forall_impl; [|exact H]. intros s Hs. destruct s as [i|ts].
  - apply stmt_of_item; [apply item_same|exact Hs].
  - cbn [stmt_parts visit_stmt] in *. parts Hs. rewrite (other_same ts) by assumption. reflexivity.
Qed.
End Code.

(** ** Uses *)
From Verif Require Import MeaningProofs Deprecation ResolveFacts SpecDeprecation SpecProduct.
Section Uses.
Context (O : oracles) (P : parsers) (Y : syntax).

Lemma erased_bindings seed k items items' : erase_items items = erase_items items' ->
  bindings O (new_initialized O seed k) items = bindings O (new_initialized O seed 0) items'.
Proof.
  intros H. symmetry. set (rho := fun i => (i + k)%N).
  assert (E : new_initialized O seed k = renumber rho (new_initialized O seed 0)).
  { unfold new_initialized, renumber, rho. cbn [e_seed e_funcs]. rewrite <- number_rows_shift. reflexivity. }
  rewrite E. apply (bindings_same (fun f f' => f' = renumber_func rho f)); [| | |reflexivity|symmetry; exact H].
  - intros f f' ->. repeat split.
  - intros f f' g g' -> ->. unfold rho. cbn. destruct (N.ltb_spec (f_id f) (f_id g)) as [Hl|Hl]; symmetry; [apply N.ltb_lt|apply N.ltb_ge]; lia.
  - intros name. unfold get_func_variants, renumber. cbn [e_funcs]. rewrite assoc_str_map. destruct (assoc_str name _) as [fs|]; cbn; [|exact I]. induction fs; cbn; constructor; auto.
Qed.
Lemma erase_twice items : erase_items (erase_items items) = erase_items items.
Proof.
  unfold erase_items. rewrite map_map. apply map_ext. intros [x e]. cbn [fst snd]. f_equal.
  induction e as [id v|id name args raw IH] using expr_ind'; [reflexivity|]. cbn [erase]. f_equal.
  - rewrite map_map. induction IH as [|a l H _ IHl]; [reflexivity|]. cbn [map]. rewrite H, IHl. reflexivity.
  - destruct raw as [[r ts]|]; reflexivity.
Qed.

(** The result of a round. *)
Definition round_result (seed : N) (t : thread) (block : list stmt) (items : list spec_item) : res (list tt) :=
  let! bs := bindings O (new_initialized O seed 0) items in substitute O Y t block bs.
Definition fronts {B} (ast : raw_ast B) : list (option (list spec_item)) :=
  match ast_loops ast with
  | None => [Some []]
  | Some loops => map (all_matched (map loop_pattern loops)) (all_combinations (map loop_values loops))
  end.
Lemma rounds_fronts {B} (ast : raw_ast B) : rounds ast = map (option_map (fun f => f ++ own_items ast)) (fronts ast).
Proof. unfold rounds, fronts. destruct (ast_loops ast) as [ls|]; [|reflexivity]. rewrite map_map. reflexivity. Qed.
Lemma fronts_same {B} (ast ast' : raw_ast B) : same_otherwise ast ast' -> fronts (erase_ast ast) = fronts (erase_ast ast').
Proof. intros (H & _). unfold fronts. cbn [erase_ast map_ast ast_loops]. rewrite H. reflexivity. Qed.
Lemma erased_own {B} (ast : raw_ast B) : own_items (erase_ast ast) = erase_items (own_items ast).
Proof. apply own_items_map. Qed.

Definition sequenced {A} (f : A -> res (list tt)) (l : option (list A)) : res (list tt) :=
  match l with Some rs => in_sequence (map f rs) | None => Err TypeError end.
Lemma use_rounds p u ast : p_ast (inv_parsed (invocation_for O P u)) = Ok (Some ast) ->
  execute O Y (new_initialized O (u_seed u) (u_first_id u)) (thread_for p (invocation_for O P u)) ast =
  sequenced (round_result (u_seed u) (thread_for p (invocation_for O P u)) (ast_block ast)) (all_some (map (option_map (fun f => f ++ erase_items (own_items ast))) (fronts (erase_ast ast)))).
Proof.
  intros Hp. rewrite execute_rounds, <- erased_own, <- rounds_fronts. unfold erase_ast. rewrite rounds_map, all_some_map.
  destruct (all_some (rounds ast)) as [rs|] eqn:Er; [|reflexivity]. cbn [option_map sequenced]. rewrite map_map. f_equal. apply map_ext_in. intros items Hin.
  rewrite round_execute. unfold execute_block_rewrite, round_result. cbn [fst snd].
  rewrite make_substitutions_spec by (cbn [spec_items]; eapply rounds_NoDup; eassumption). cbn [spec_items].
  rewrite (erased_bindings (u_seed u) (u_first_id u) items (map_items erase items)); [reflexivity|]. symmetry. apply erase_twice.
Qed.
Lemma all_some_ext {A B C} (f : A -> B) (g : A -> C) (rB : B -> res (list tt)) (rC : C -> res (list tt)) (l : list (option A)) :
  (forall a, In (Some a) l -> rB (f a) = rC (g a)) ->
  sequenced rB (all_some (map (option_map f) l)) = sequenced rC (all_some (map (option_map g) l)).
Proof.
  intros H. rewrite !all_some_map. destruct (all_some l) as [rs|] eqn:E; [|reflexivity]. cbn [option_map sequenced]. rewrite !map_map. f_equal.
  apply map_ext_in. intros a Ha. apply H. revert rs E Ha. induction l as [|[x|] l IH]; intros rs E Ha; [injection E as <-; destruct Ha| |discriminate].
  cbn [all_some] in E. destruct (all_some l) as [r|]; [|discriminate]. injection E as <-. destruct Ha as [->|Ha]; [left; reflexivity|right].
  apply (IH ltac:(intros; apply H; right; assumption) r eq_refl Ha).
Qed.
Lemma with_rounds {B} (ast : raw_ast B) items a : In (Some a) (fronts (erase_ast ast)) -> In (Some (a ++ items)) (rounds (with_definitions (erase_ast ast) items)).
Proof.
  intros H. rewrite rounds_fronts. change (own_items (with_definitions (erase_ast ast) items)) with items.
  change (fronts (with_definitions (erase_ast ast) items)) with (fronts (erase_ast ast)). apply in_map_iff. exists (Some a). auto.
Qed.
Lemma substitute_same t block bs bs' (ok : str -> Prop) : (forall x, ok x -> assoc_str x bs = assoc_str x bs') ->
  faithful O (reparse Y) \/ (forall x, assoc_str x bs = assoc_str x bs') ->
  Forall (fun p => code_over O ok (part_code p)) (block_parts block) -> substitute O Y t block bs = substitute O Y t block bs'.
Proof.
  intros H HF HC. unfold substitute. rewrite (block_same O (fun x => assoc_str x bs) (fun x => assoc_str x bs') (reparse Y) HF block); [reflexivity|].
  eapply Forall_impl; [|exact HC]. intros p Hp. eapply Forall_impl; [|exact Hp]. intros l. apply (leaf_over_same O _ _ ok H).
Qed.

Lemma all_code ts : code_over O (fun _ => True) ts.
Proof.
  apply Forall_forall. intros t _. destruct t as [x|c j|l|d m]; cbn; try exact I. intros v s _. destruct (every_string_has_pieces v) as (ps & tail & -> & Hw).
  exists ps, tail. auto.
Qed.

Lemma unused_in_use uses i j u u' ast ast' pre a e post :
  faithful O (reparse Y) -> nth_error uses i = Some u -> nth_error uses j = Some u' -> u_seed u = u_seed u' ->
  p_ast (inv_parsed (invocation_for O P u)) = Ok (Some ast) -> p_ast (inv_parsed (invocation_for O P u')) = Ok (Some ast') ->
  raised (invocation_for O P u) = raised (invocation_for O P u') -> same_otherwise ast ast' ->
  erase_items (own_items ast) = pre ++ (a, e) :: post -> erase_items (own_items ast') = pre ++ post ->
  items_without a post -> block_without O a (ast_block ast) ->
  (forall items, In (Some items) (rounds (with_definitions (erase_ast ast) (pre ++ [(a, e)]))) -> exists bs, bindings O (new_initialized O (u_seed u) 0) items = Ok bs) ->
  nth_error (expand_uses O P Y uses) i = nth_error (expand_uses O P Y uses) j.
Proof.
  intros Hf Hi Hj Hs Hp Hp' Hr Hsame Ho Ho' Hw Hb Hround. rewrite (use_output O P Y uses i u Hi), (use_output O P Y uses j u' Hj). f_equal.
  assert (Ehd : hd u uses = hd u' uses) by (destruct uses; [destruct i; discriminate|reflexivity]). rewrite Ehd. set (p := prefix_of _).
  unfold InterpreterProofs.outcome. rewrite Hp, Hp'.
  change (inv_seed (invocation_for O P u)) with (u_seed u). change (inv_seed (invocation_for O P u')) with (u_seed u').
  change (inv_first_id (invocation_for O P u)) with (u_first_id u). change (inv_first_id (invocation_for O P u')) with (u_first_id u').
  rewrite (use_rounds p u ast Hp), (use_rounds p u' ast' Hp'), Ho, Ho', <- (fronts_same _ _ Hsame), <- Hs.
  assert (Ht : thread_for p (invocation_for O P u) = thread_for p (invocation_for O P u')) by (unfold thread_for; rewrite Hr; reflexivity). rewrite <- Ht.
  rewrite <- (proj2 Hsame).
  rewrite (all_some_ext _ (fun f => f ++ pre ++ post) _ (round_result (u_seed u) (thread_for p (invocation_for O P u)) (ast_block ast))); [reflexivity|].
  intros f Hin. apply (with_rounds ast (pre ++ [(a, e)])) in Hin. destruct (Hround _ Hin) as (b1 & H1).
  unfold round_result. rewrite app_assoc in H1. rewrite !app_assoc, (unused_definition O _ (f ++ pre) a e post b1 H1 Hw).
  destruct (bindings O _ ((f ++ pre) ++ (a, e) :: post)) as [bs| |]; try reflexivity. cbn [bind].
  apply (substitute_same _ _ _ _ (fun x => x <> a)); [|left; exact Hf|exact Hb]. intros x Hx. symmetry. apply without_lookup, Hx.
Qed.

Lemma rearranged_round seed t block items items' bs : rearranged items items' -> bindings O (new_initialized O seed 0) items = Ok bs ->
  round_result seed t block items = round_result seed t block items'.
Proof.
  intros H Hb. destruct (rearranged_bindings _ _ _ _ H _ Hb) as (bs' & Hb' & _ & Hl). unfold round_result. rewrite Hb, Hb'. cbn [bind].
  apply (substitute_same _ _ _ _ (fun _ => True)); [auto|auto|]. apply Forall_forall. intros p _. apply all_code.
Qed.
Section Rearranged.
Context (uses : list use) (i j : nat) (u u' : use) (ast ast' : raw_ast (list stmt)).
Hypothesis Hi : nth_error uses i = Some u.
Hypothesis Hj : nth_error uses j = Some u'.
Hypothesis Hs : u_seed u = u_seed u'.
Hypothesis Hp : p_ast (inv_parsed (invocation_for O P u)) = Ok (Some ast).
Hypothesis Hp' : p_ast (inv_parsed (invocation_for O P u')) = Ok (Some ast').
Hypothesis Hr : raised (invocation_for O P u) = raised (invocation_for O P u').
Hypothesis Hsame : same_otherwise ast ast'.
Hypothesis Hre : rearranged (erase_items (own_items ast)) (erase_items (own_items ast')).

Lemma rearranged_in_use :
  (forall items, In (Some items) (rounds (erase_ast ast)) -> exists bs, bindings O (new_initialized O (u_seed u) 0) items = Ok bs) ->
  nth_error (expand_uses O P Y uses) i = nth_error (expand_uses O P Y uses) j.
Proof.
  intros Hround. rewrite (use_output O P Y uses i u Hi), (use_output O P Y uses j u' Hj). f_equal.
  assert (Ehd : hd u uses = hd u' uses) by (destruct uses; [destruct i; discriminate|reflexivity]). rewrite Ehd. set (p := prefix_of _).
  unfold InterpreterProofs.outcome. rewrite Hp, Hp'.
  change (inv_seed (invocation_for O P u)) with (u_seed u). change (inv_seed (invocation_for O P u')) with (u_seed u').
  change (inv_first_id (invocation_for O P u)) with (u_first_id u). change (inv_first_id (invocation_for O P u')) with (u_first_id u').
  rewrite (use_rounds p u ast Hp), (use_rounds p u' ast' Hp'), <- (fronts_same _ _ Hsame), <- Hs.
  assert (Ht : thread_for p (invocation_for O P u) = thread_for p (invocation_for O P u')) by (unfold thread_for; rewrite Hr; reflexivity). rewrite <- Ht.
  rewrite <- (proj2 Hsame).
  rewrite (all_some_ext _ (fun f => f ++ erase_items (own_items ast')) _ (round_result (u_seed u) (thread_for p (invocation_for O P u)) (ast_block ast))); [reflexivity|].
  intros f Hin. assert (Hin' : In (Some (f ++ erase_items (own_items ast))) (rounds (erase_ast ast))).
  { rewrite rounds_fronts, erased_own. apply in_map_iff. exists (Some f). auto. }
  destruct (Hround _ Hin') as (bs & Hbs). eapply rearranged_round; [|exact Hbs]. apply rearranged_app, Hre.
Qed.
Lemma rearranged_code ts : nth_error (expand_uses O P Y uses) i = Some (Code ts) -> nth_error (expand_uses O P Y uses) j = Some (Code ts).
Proof.
  intros H. rewrite <- rearranged_in_use; [exact H|]. intros items Hin. rewrite (use_output O P Y uses i u Hi) in H. revert H. set (p := prefix_of _).
  unfold InterpreterProofs.outcome. rewrite Hp. change (inv_seed (invocation_for O P u)) with (u_seed u). change (inv_first_id (invocation_for O P u)) with (u_first_id u).
  rewrite (use_rounds p u ast Hp), <- erased_own, <- rounds_fronts. intros H. assert (Hok : exists c, sequenced (round_result (u_seed u) (thread_for p (invocation_for O P u)) (ast_block ast)) (all_some (rounds (erase_ast ast))) = Ok c).
  { destruct (sequenced _ _); [eauto|discriminate H..]. }
  clear H. destruct Hok as (c & Hc). revert c Hc. induction (rounds (erase_ast ast)) as [|[x|] l IH]; intros c Hc; [destruct Hin| |discriminate Hc].
  cbn [all_some] in Hc. destruct (all_some l) as [r|]; [|discriminate Hc]. cbn [option_map sequenced map in_sequence] in Hc. apply bind_Ok in Hc as (c1 & H1 & Hc). apply bind_Ok in Hc as (c2 & H2 & _).
  destruct Hin as [E|Hin]; [injection E as ->|].
  - unfold round_result in H1. apply bind_Ok in H1 as (bs & H1 & _). eauto.
  - eapply IH; [exact Hin|exact H2].
Qed.
End Rearranged.

(** Statement by statement. *)
Lemma mapM_app {A B} (f : A -> res B) l l' : mapM f (l ++ l') = let! a := mapM f l in let! b := mapM f l' in Ok (a ++ b).
Proof.
  induction l as [|x l IH]; cbn [app mapM bind]; [destruct (mapM f l'); reflexivity|]. destruct (f x); try reflexivity. cbn [bind]. rewrite IH.
  destruct (mapM f l); try reflexivity. cbn [bind]. destruct (mapM f l'); reflexivity.
Qed.
Lemma substitute_app p inv b1 b2 bs : covers Y -> raised inv = [] ->
  substitute O Y (thread_for p inv) (b1 ++ b2) bs = in_sequence [substitute O Y (thread_for p inv) b1 bs; substitute O Y (thread_for p inv) b2 bs].
Proof.
  intros Hc Hr. unfold substitute, thread_for. rewrite Hr. cbn [scope_emit emit warnings in_sequence]. unfold visit_block. rewrite mapM_app.
  destruct (mapM _ b1) as [c1| |]; try reflexivity. cbn [bind]. destruct (mapM _ b2) as [c2| |]; try reflexivity. cbn [bind]. unfold covers in Hc. rewrite !Hc, app_nil_r.
  unfold block_tokens. rewrite flat_map_app. reflexivity.
Qed.
Lemma blocks_in_sequence uses i i1 i2 u u1 u2 ast ast1 ast2 : covers Y ->
  nth_error uses i = Some u -> nth_error uses i1 = Some u1 -> nth_error uses i2 = Some u2 -> u_seed u1 = u_seed u -> u_seed u2 = u_seed u ->
  p_ast (inv_parsed (invocation_for O P u)) = Ok (Some ast) -> p_ast (inv_parsed (invocation_for O P u1)) = Ok (Some ast1) -> p_ast (inv_parsed (invocation_for O P u2)) = Ok (Some ast2) ->
  raised (invocation_for O P u) = [] -> raised (invocation_for O P u1) = [] -> raised (invocation_for O P u2) = [] ->
  ast_loops ast = None -> ast_loops ast1 = None -> ast_loops ast2 = None ->
  erase_items (own_items ast1) = erase_items (own_items ast) -> erase_items (own_items ast2) = erase_items (own_items ast) ->
  ast_block ast = ast_block ast1 ++ ast_block ast2 ->
  nth_error (expand_uses O P Y uses) i =
  match nth_error (expand_uses O P Y uses) i1, nth_error (expand_uses O P Y uses) i2 with Some o1, Some o2 => Some (outputs_in_sequence [o1; o2]) | _, _ => None end.
Proof.
  intros Hc Hi H1 H2 Hs1 Hs2 Hp Hp1 Hp2 Hr Hr1 Hr2 Hl Hl1 Hl2 Ho1 Ho2 Hb.
  rewrite (use_output O P Y uses i u Hi), (use_output O P Y uses i1 u1 H1), (use_output O P Y uses i2 u2 H2). f_equal.
  assert (E1 : hd u1 uses = hd u uses) by (destruct uses; [destruct i; discriminate|reflexivity]).
  assert (E2 : hd u2 uses = hd u uses) by (destruct uses; [destruct i; discriminate|reflexivity]). rewrite E1, E2. set (p := prefix_of _).
  unfold InterpreterProofs.outcome. rewrite Hp, Hp1, Hp2. unfold invocation_for. cbn [inv_seed inv_first_id invocation_of]. fold (invocation_for O P u) (invocation_for O P u1) (invocation_for O P u2).
  rewrite (use_rounds p u ast Hp), (use_rounds p u1 ast1 Hp1), (use_rounds p u2 ast2 Hp2). rewrite Ho1, Ho2, Hs1, Hs2. unfold fronts. cbn [erase_ast map_ast ast_loops]. rewrite Hl, Hl1, Hl2.
  cbn [option_map map all_some sequenced app in_sequence]. unfold round_result. rewrite Hb.
  assert (T1 : thread_for p (invocation_for O P u1) = thread_for p (invocation_for O P u)) by (unfold thread_for; rewrite Hr, Hr1; reflexivity).
  assert (T2 : thread_for p (invocation_for O P u2) = thread_for p (invocation_for O P u)) by (unfold thread_for; rewrite Hr, Hr2; reflexivity). rewrite T1, T2.
  destruct (bindings O _ _) as [bs|er|q]; try reflexivity. cbn [bind]. rewrite (substitute_app p _ _ _ bs Hc Hr). cbn [in_sequence].
  destruct (substitute O Y _ (ast_block ast1) bs); try reflexivity. cbn [bind]. destruct (substitute O Y _ (ast_block ast2) bs); try reflexivity. cbn [bind outputs_in_sequence].
  rewrite !app_nil_r. reflexivity.
Qed.
End Uses.
