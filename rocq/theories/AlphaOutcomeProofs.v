(** What uses with other names for their aliases come to. *)
From Coq Require Import String Lia Bool.
From Verif Require Import Base BaseFacts Token Types Values FormatString Ast Env Item Interpreter Parse Macro SpecFormat SpecSubst SpecElab SpecMacro SpecTuple SpecItem SpecNaming SpecRename
  SpecRepro SpecDeprecation SpecHeaders SpecPrograms SpecNested SpecOutcome SpecAlpha SpecAlphaOutcome
  ElabFacts BuiltinFacts OrderProofs LoopAlgebra FormatProofs SubstFacts NamingProofs ReproProofs MacroProofs MeaningProofs OutcomeProofs NestedProofs RenameWalk RenameItem HeaderProofs HeaderUseProofs AlphaProofs.
Open Scope list_scope.

Section Outcome.
Context (O : oracles) (r : naming) (R : one_to_one r).
Notation rename := (rename r).
Notation rename1 := (rename1 r).
Definition rename_fail (f : failure) : failure := match f with Fails e => Fails (rename_error r e) | Panics p => Panics p end.
Definition rename_stage (s : option str * list tt) : option str * list tt := (option_map r (fst s), rename (snd s)).
Definition rename_part (p : part) : part :=
  match p with
  | PartNode k ts => PartNode k (rename ts)
  | PartName x => PartName (r x)
  | PartAttributes l => PartAttributes (rename_attrs r l)
  | PartAbi v s => PartAbi v s
  | PartStatement ts => PartStatement (rename ts)
  end.

(** ** Parts *)
Lemma flat_parts {A} (f : A -> list part) (h : A -> A) l : Forall (fun a => f (h a) = map rename_part (f a)) l -> flat_map f (map h l) = map rename_part (flat_map f l).
Proof. induction 1 as [|a l Ha _ IH]; [reflexivity|]. cbn [map flat_map]. rewrite map_app, Ha, IH. reflexivity. Qed.
Lemma field_parts_rename f : field_parts (rename_field r f) = map rename_part (field_parts f).
Proof. destruct f as [a v [x|] t]; reflexivity. Qed.
Lemma fields_parts_rename f : fields_parts (rename_fields r f) = map rename_part (fields_parts f).
Proof. destruct f as [l t|l t|]; [| |reflexivity]; apply flat_parts, Forall_forall; intros f _; apply field_parts_rename. Qed.
Lemma variant_parts_rename v : variant_parts (rename_variant r v) = map rename_part (variant_parts v).
Proof.
  destruct v as [a x f d]. unfold variant_parts. cbn [rename_variant v_attrs v_ident v_fields v_disc]. rewrite fields_parts_rename, !map_app. destruct d; reflexivity.
Qed.
Ltac refold := fold (rename_item r) (rename_stmt r) (rename_trait_item r) (rename_impl_item r); fold item_parts stmt_parts trait_item_parts impl_item_parts.
Lemma parts_rename_all s : stmt_parts (rename_stmt r s) = map rename_part (stmt_parts s).
Proof.
  pose (Pi := fun i => item_parts (rename_item r i) = map rename_part (item_parts i)).
  pose (Ps := fun s => stmt_parts (rename_stmt r s) = map rename_part (stmt_parts s)).
  pose (Pt := fun i => trait_item_parts (rename_trait_item r i) = map rename_part (trait_item_parts i)).
  pose (Pm := fun i => impl_item_parts (rename_impl_item r i) = map rename_part (impl_item_parts i)).
  change (Ps s). apply (stmt_ind' Pi Ps Pt Pm); unfold Pi, Ps, Pt, Pm; clear s.
  - intros a v s b Hb. cbn [rename_item item_parts]. refold. rewrite (flat_parts _ _ _ Hb), !map_app. reflexivity.
  - intros a v x g f. cbn [rename_item item_parts]. refold. rewrite fields_parts_rename, !map_app. reflexivity.
  - intros a v x g l t. cbn [rename_item item_parts]. refold. rewrite (flat_parts variant_parts (rename_variant r)) by (apply Forall_forall; intros w _; apply variant_parts_rename). rewrite !map_app. reflexivity.
  - intros a v x g l t. cbn [rename_item item_parts]. refold. rewrite (flat_parts field_parts (rename_field r)) by (apply Forall_forall; intros w _; apply field_parts_rename). rewrite !map_app. reflexivity.
  - intros a v u au x g s t l Hl. cbn [rename_item item_parts]. refold. rewrite (flat_parts _ _ _ Hl), !map_app, !map_map. reflexivity.
  - intros a d u g tr ty l Hl. cbn [rename_item item_parts]. refold. rewrite (flat_parts _ _ _ Hl), !map_app. destruct tr; reflexivity.
  - intros a v u x l Hl. cbn [rename_item item_parts]. refold. rewrite (flat_parts _ _ _ Hl), !map_app. reflexivity.
  - reflexivity.
  - intros a u abi l. cbn [rename_item item_parts]. refold. rewrite !map_app, !map_map. destruct abi; reflexivity.
  - reflexivity.
  - intros i Hi. destruct i; try exact Hi. reflexivity.
  - reflexivity.
  - intros a s b Hb. cbn [rename_trait_item trait_item_parts]. refold. rewrite (flat_parts _ _ _ Hb), !map_app. reflexivity.
  - reflexivity.
  - reflexivity.
  - intros a v d s b Hb. cbn [rename_impl_item impl_item_parts]. refold. rewrite (flat_parts _ _ _ Hb), !map_app. reflexivity.
  - reflexivity.
Qed.
Lemma block_parts_rename b : block_parts (rename_block r b) = map rename_part (block_parts b).
Proof. apply flat_parts, Forall_forall. intros s _. apply parts_rename_all. Qed.
Lemma part_tokens_rename p : part_tokens (rename_part p) = rename (part_tokens p).
Proof. destruct p as [k ts|x|l|v s|ts]; try reflexivity; cbn [rename_part part_tokens]; [apply attrs_tokens_rename|cbn; rewrite (one_to_one_literals _ R); reflexivity]. Qed.

(** ** Stages *)
Section Round.
Context (bs : list (str * value)) (V : forall b, In b bs -> rename (to_tokens (snd b)) = to_tokens (snd b)).
Let f x := assoc_str x bs.
Let f' x := assoc_str x (rename_keys r bs).
Let A := tokens_of f.
Let A' := tokens_of f'.
Let L := literal_of O f.
Let L' := literal_of O f'.
Lemma in_assoc x v : assoc_str x bs = Some v -> In (x, v) bs.
Proof. clear. induction bs as [|[y w] l IH]; [discriminate|]. cbn. destruct (str_eqb x y) eqn:E; [intros H; injection H as ->; apply str_eqb_eq in E as ->; left; reflexivity|intros H; right; exact (IH H)]. Qed.
Lemma scoped_app a b : scoped_code O r (map fst bs) (a ++ b) -> scoped_code O r (map fst bs) a /\ scoped_code O r (map fst bs) b.
Proof.
  intros [Hi Hl]. unfold leaves in *. split; (split; [intros x Hx; apply Hi|intros l v p Hx; apply (Hl l v p)]); rewrite flat_map_app; apply in_app_iff; auto.
Qed.
Lemma scoped_group d ts : scoped_code O r (map fst bs) [TGroup d ts] -> scoped_code O r (map fst bs) ts.
Proof. intros [Hi Hl]. unfold leaves in *. cbn [flat_map leaves1] in Hi, Hl. rewrite app_nil_r in Hi, Hl. split; assumption. Qed.
Lemma one_renamed t : scoped_code O r (map fst bs) [t] -> replaced A' L' (rename1 t) = replaced A L t.
Proof. intros H. pose proof (code_renamed O r R bs [t] H) as E. unfold substituted, replaced_stream in E. cbn [SpecRename.rename map flat_map] in E. rewrite !app_nil_r in E. exact E. Qed.
Lemma all_renamed ts : scoped_code O r (map fst bs) ts -> flat_map (replaced A' L') (rename ts) = flat_map (replaced A L) ts.
Proof. exact (code_renamed O r R bs ts). Qed.
Lemma replaced_kept t : scoped_code O r (map fst bs) [t] -> rename (replaced A L t) = replaced A L t.
Proof.
  induction t as [x|c j|l|d ts IH] using tt_ind'; intros H.
  - cbn [replaced]. unfold A, tokens_of, f. destruct (assoc_str x bs) as [v|] eqn:E; cbn [option_map]; [exact (V _ (in_assoc _ _ E))|].
    destruct H as [Hi _]. destruct (Hi x (or_introl eq_refl)) as [Hb|Hb]; [exfalso; exact (assoc_bound _ _ Hb E)|]. cbn. rewrite Hb. reflexivity.
  - reflexivity.
  - cbn [replaced]. destruct (L l); cbn; rewrite (one_to_one_literals _ R); reflexivity.
  - cbn [replaced]. cbn [SpecRename.rename map SpecRename.rename1]. do 2 f_equal. apply scoped_group in H.
    induction IH as [|t ts Ht _ IHts]; [reflexivity|]. cbn [flat_map]. rewrite map_app. destruct (scoped_app [t] ts H) as [H1 H2]. rewrite (Ht H1 : map rename1 _ = _), (IHts H2). reflexivity.
Qed.
Lemma stages_list ts : Forall (fun t => scoped_code O r (map fst bs) [t] -> stages1 A' L' (rename1 t) = map rename_stage (stages1 A L t)) ts -> scoped_code O r (map fst bs) ts ->
  stages A' L' (rename ts) = map rename_stage (stages A L ts).
Proof.
  induction 1 as [|t ts Ht _ IH]; intros H; [reflexivity|]. destruct (scoped_app [t] ts H) as [H1 H2]. cbn [SpecRename.rename map stages]. rewrite (Ht H1), (IH H2 : stages A' L' (map rename1 ts) = _), map_app, !map_map. f_equal.
  - apply map_ext. intros [n s]. unfold rename_stage. cbn [fst snd]. rewrite rename_app. reflexivity.
  - apply map_ext. intros [n s]. unfold rename_stage. cbn [fst snd]. rewrite rename_app, (replaced_kept t H1), (one_renamed t H1). reflexivity.
Qed.
Lemma stages1_group B N d ts : stages1 B N (TGroup d ts) = map (fun s => (fst s, [TGroup d (snd s)])) (stages B N ts).
Proof. reflexivity. Qed.
Lemma stages1_renamed t : scoped_code O r (map fst bs) [t] -> stages1 A' L' (rename1 t) = map rename_stage (stages1 A L t).
Proof.
  induction t as [x|c j|l|d ts IH] using tt_ind'; intros H.
  - pose proof (replaced_kept _ H) as K. cbn [SpecRename.rename1 stages1 replaced] in *. unfold A', A, tokens_of, f', f in *. rewrite (assoc_renamed r R). destruct (assoc_str x bs) as [v|]; [|reflexivity]. cbn [option_map map] in *. unfold rename_stage. cbn [fst snd option_map]. rewrite K. reflexivity.
  - reflexivity.
  - pose proof (one_renamed _ H) as K. cbn [SpecRename.rename1 stages1 replaced] in *. rewrite (one_to_one_literals _ R) in *. destruct (L' l) as [a|] eqn:E1, (L l) as [b|] eqn:E2; try reflexivity.
    + injection K as ->. unfold rename_stage. cbn. rewrite (one_to_one_literals _ R). reflexivity.
    + exfalso. unfold L', L, literal_of in E1, E2. destruct (parse_lit_str O [TLit l]) as [[? ?]|]; discriminate.
    + exfalso. unfold L', L, literal_of in E1, E2. destruct (parse_lit_str O [TLit l]) as [[? ?]|]; discriminate.
  - cbn [SpecRename.rename1]. change (map rename1 ts) with (rename ts). rewrite !stages1_group, (stages_list ts IH (scoped_group d ts H)), !map_map. apply map_ext. intros [n s]. reflexivity.
Qed.
Lemma stages_renamed ts : scoped_code O r (map fst bs) ts -> substitution_stages O f' (rename ts) = map rename_stage (substitution_stages O f ts).
Proof. intros H. apply stages_list; [|exact H]. apply Forall_forall. intros t _. apply stages1_renamed. Qed.

(** ** Failures *)
Lemma stage_failure_renamed (acc acc' : list tt -> bool) : (forall ts, acc' (rename ts) = acc ts) -> forall l alias final, acc' final = acc final ->
  stage_failure acc' (option_map r alias) (map rename_stage l) final = option_map rename_fail (stage_failure acc alias l final).
Proof.
  intros Ha. induction l as [|[n s] l IH]; intros alias final Hf; cbn [map rename_stage fst snd stage_failure].
  - rewrite Hf. destruct (acc final); reflexivity.
  - rewrite Ha. assert (E : match option_map r n with Some x => Some x | None => option_map r alias end = option_map r (match n with Some x => Some x | None => alias end)) by (destruct n; reflexivity).
    rewrite E. destruct (acc s); [apply IH, Hf|]. destruct n; [reflexivity|]. destruct alias; reflexivity.
Qed.
Lemma tokens_failure_renamed (acc : list tt -> bool) ts : (forall ts, acc (rename ts) = acc ts) -> scoped_code O r (map fst bs) ts ->
  tokens_failure O f' acc (rename ts) = option_map rename_fail (tokens_failure O f acc ts).
Proof.
  intros Ha H. unfold tokens_failure. rewrite (stages_renamed ts H). replace (substituted O f' (rename ts)) with (substituted O f ts) by (symmetry; exact (code_renamed O r R bs ts H)).
  exact (stage_failure_renamed acc acc Ha _ None _ eq_refl).
Qed.
Context (reparse : kind -> list tt -> option (list tt)) (F : faithful O reparse).
Context (Hi : forall ts, parse_ident O (rename ts) = option_map r (parse_ident O ts)).
Context (Hr : forall k ts, reparse k (rename ts) = option_map rename (reparse k ts)).
Lemma node_accepted k ts : accepted (reparse k (rename ts)) = accepted (reparse k ts).
Proof. rewrite Hr. destruct (reparse k ts); reflexivity. Qed.
Lemma attributes_renamed n : forall ts, List.length ts <= n -> attributes_accepted reparse (rename ts) = attributes_accepted reparse ts.
Proof.
  induction n as [|n IH]; intros [|t ts] Hn; try reflexivity; [cbn in Hn; lia|]. destruct t as [x|c j|l|d g]; try reflexivity. destruct ts as [|[x|c' j'|l|[| | |] g] ts]; try reflexivity.
  cbn [SpecRename.rename map SpecRename.rename1 attributes_accepted]. change (map rename1 g) with (rename g). change (map rename1 ts) with (rename ts). rewrite node_accepted, IH by (cbn in Hn; lia). reflexivity.
Qed.
Lemma literal_accepted ts : accepted (parse_lit_str O (rename ts)) = accepted (parse_lit_str O ts).
Proof.
  destruct (parse_lit_str O ts) as [[v p]|] eqn:E.
  - apply (faithful_str _ _ F) in E as E'. subst ts. cbn [SpecRename.rename map SpecRename.rename1]. rewrite (one_to_one_literals _ R), E. reflexivity.
  - destruct (parse_lit_str O (rename ts)) as [[v p]|] eqn:E'; [|reflexivity]. apply (faithful_str _ _ F) in E' as E''. destruct ts as [|[x|c j|l|d g] [|t ts]]; try discriminate E''.
    cbn [SpecRename.rename map SpecRename.rename1] in E', E''. rewrite (one_to_one_literals _ R) in E', E''. congruence.
Qed.
Lemma part_failure_renamed p : scoped_code O r (map fst bs) (part_tokens p) -> part_failure O f' reparse (rename_part p) = option_map rename_fail (part_failure O f reparse p).
Proof.
  destruct p as [k ts|x|l|v s|ts]; cbn [part_tokens rename_part part_failure]; intros H.
  - apply tokens_failure_renamed; [intros; apply node_accepted|exact H].
  - apply (tokens_failure_renamed (fun ts => accepted (parse_ident O ts)) [TIdent x]); [intros ts; rewrite Hi; destruct (parse_ident O ts); reflexivity|exact H].
  - rewrite attrs_tokens_rename. apply tokens_failure_renamed; [intros ts; apply (attributes_renamed _ _ (le_n _))|exact H].
  - replace [TLit (LStr v s)] with (rename [TLit (LStr v s)]) at 1 by (cbn; rewrite (one_to_one_literals _ R); reflexivity). apply tokens_failure_renamed; [apply literal_accepted|exact H].
  - change [TGroup Brace (rename ts)] with (rename [TGroup Brace ts]). rewrite node_accepted. destruct (accepted (reparse KBlock [TGroup Brace ts])); [|reflexivity]. apply tokens_failure_renamed; [intros; apply node_accepted|].
    destruct H as [H1 H2]. split; unfold leaves in *; cbn [flat_map leaves1]; rewrite app_nil_r; assumption.
Qed.
Lemma first_part_renamed l : (forall p, In p l -> scoped_code O r (map fst bs) (part_tokens p)) ->
  first_part_failure O f' reparse (map rename_part l) = option_map rename_fail (first_part_failure O f reparse l).
Proof.
  induction l as [|p l IH]; intros H; [reflexivity|]. cbn [map first_part_failure]. rewrite (part_failure_renamed p (H p (or_introl eq_refl))). destruct (part_failure O f reparse p); [reflexivity|]. apply IH. intros q Hq. apply H. right. exact Hq.
Qed.
End Round.
End Outcome.

(** ** Definitions *)
Section Definitions.
Context (O : oracles) (r : naming) (R : one_to_one r).
Definition renamed_res {A} (f : A -> A) (x : res A) : res A := match x with Ok a => Ok (f a) | Err e => Err (rename_error r e) | Panic p => Panic p end.

Lemma elab_fails s k items : forall G er, aliases_before r (map fst G) items -> elab_items (new_initialized O s k) G items = Err er ->
  elab_items (new_initialized O s k) (rename_keys r G) (map (rename_definition r) items) = Err (rename_error r er).
Proof.
  induction items as [|[x e] items IH]; intros G er Hs H; [discriminate|].
  cbn [aliases_before fst snd] in Hs. destruct Hs as [He Hs]. cbn [elab_items] in H. change (map (rename_definition r) ((x, e) :: items)) with ((r x, rename_expr r e) :: map (rename_definition r) items). cbn [elab_items].
  pose proof (elab_leafrel O s k (vr r (map fst G)) (fun G0 G1 => G0 = G /\ G1 = rename_keys r G)) as L.
  specialize (L ltac:(intros G0 G1 v v' [-> ->] Hv; destruct v; cbn in Hv; try (subst v'; reflexivity); destruct Hv as [-> Hv]; cbn [static_type]; rewrite (assoc_renamed r R); reflexivity) (vr_raw r _)
    e (rename_expr r e) G (rename_keys r G) None (vr_leaf r _ _ He) (conj eq_refl eq_refl)).
  unfold orel in L. destruct (elab _ G e None) as [[te c]|e1] eqn:E1.
  - destruct (elab _ (rename_keys r G) _ None) as [[te' c']|]; [|destruct L]. destruct L as [L _].
    rewrite (assoc_renamed r R). destruct (assoc_str x G) eqn:Ea; [injection H as <-; reflexivity|].
    assert (Et : target_of te' = target_of te) by (inversion L; reflexivity). rewrite Et.
    destruct (elab_items _ ((x, target_of te) :: G) items) as [l|e2|p] eqn:E2; cbn [bind] in H; [discriminate| |discriminate]. injection H as ->.
    exact (f_equal (fun o => let! q := o in Ok ((r x, te') :: q)) (IH ((x, target_of te) :: G) er Hs E2)).
  - destruct (elab _ (rename_keys r G) _ None) as [[te' c']|e2]; [destruct L|]. injection H as ->. subst e2. apply elab_errors in E1 as [->|[[y ->]|[y ->]]]; reflexivity.
Qed.
Lemma elab_panics s k items : forall G p, elab_items (new_initialized O s k) G items <> Panic p.
Proof.
  induction items as [|[x e] items IH]; intros G p H; [discriminate|]. cbn [elab_items] in H. destruct (elab _ G e None) as [[te c]|]; [|discriminate]. destruct (assoc_str x G); [discriminate|].
  destruct (elab_items _ ((x, target_of te) :: G) items) as [l|e2|q] eqn:E; try discriminate. exact (IH _ _ E).
Qed.
Theorem definitions_end s k items : aliases_before r [] items ->
  bindings O (new_initialized O s k) (map (rename_definition r) items) = renamed_res (rename_keys r) (bindings O (new_initialized O s k) items).
Proof.
  intros Hs. unfold bindings. destruct (elab_items (new_initialized O s k) [] items) as [tis|e|p] eqn:E.
  - destruct (elab_renamed O r R s k items [] tis Hs E) as (tis' & H1' & Hr). cbn [rename_keys map] in H1'. rewrite H1'. cbn [bind].
    change (@nil (str * value)) with (rename_keys r (@nil (str * value))) at 1.
    rewrite (run_renamed O r R _ _ _ _ Hr []) by (intros y []). pose proof (items_sound O s k items [] [] tis (Forall2_nil _) E) as Hq. change (e_seed (new_initialized O s k)) with s.
    destruct (run_items O s [] tis) as [bs|er|q]; try reflexivity. destruct Hq as [->| ->]; reflexivity.
  - pose proof (elab_fails s k items [] e Hs E) as H. cbn [rename_keys map] in H. rewrite H. reflexivity.
  - destruct (elab_panics _ _ _ _ _ E).
Qed.

Section Blocks.
Context (reparse : kind -> list tt -> option (list tt)) (F : faithful O reparse) (W : Forall (spared r) printed_words).
Context (Hi : forall ts, parse_ident O (rename r ts) = option_map r (parse_ident O ts)).
Context (Hr : forall k ts, reparse k (rename r ts) = option_map (rename r) (reparse k ts)).
Theorem round_end s k items block : aliases_before r [] items -> (forall p, In p (block_parts block) -> scoped_code O r (map fst items) (part_tokens p)) ->
  scoped_code O r (map fst items) (block_tokens (map drop_where_stmt block)) ->
  (forall bs b, bindings O (new_initialized O s k) items = Ok bs -> In b bs -> rename r (to_tokens (snd b)) = to_tokens (snd b)) ->
  round_outcome O reparse (new_initialized O s k) (rename_block r block) (map (rename_definition r) items) =
  renamed_res (fun ts => ts) (round_outcome O reparse (new_initialized O s k) block items).
Proof.
  intros H1 H2 H3 H4. unfold round_outcome. rewrite (definitions_end s k items H1). destruct (bindings O _ items) as [bs|e|p] eqn:E; [|reflexivity|reflexivity]. cbn [renamed_res bind].
  rewrite <- (bindings_names O _ _ _ _ E) in H2, H3.
  rewrite block_parts_rename, (first_part_renamed O r R bs (fun b => H4 bs b eq_refl) reparse F Hi Hr _ H2).
  destruct (first_part_failure O _ reparse (block_parts block)) as [[e|p]|]; [reflexivity|reflexivity|]. cbn [option_map ends_with renamed_res]. f_equal.
  assert (Ec : block_tokens (map drop_where_stmt (rename_block r block)) = rename r (block_tokens (map drop_where_stmt block)))
    by exact (code_rename r W (fun v p => one_to_one_literals _ R (LStr v p)) {| ast_loops := None; ast_spec := None; ast_block := block |}).
  rewrite Ec. exact (code_renamed O r R bs _ H3).
Qed.
Lemma mapM_end {A B} (f g : A -> res B) h l : (forall a, In a l -> f (h a) = renamed_res (fun b => b) (g a)) -> mapM f (map h l) = renamed_res (fun b => b) (mapM g l).
Proof.
  induction l as [|a l IH]; intros H; [reflexivity|]. cbn [map mapM]. rewrite (H a (or_introl eq_refl)). destruct (g a); [|reflexivity|reflexivity]. cbn [renamed_res bind]. rewrite IH by (intros b Hb; apply H; right; exact Hb). destruct (mapM g l); reflexivity.
Qed.
Theorem meaning_end s k finish ast : scoped_use O r ast -> scoped_parts O r ast -> values_kept O r (new_initialized O s k) ast ->
  exact_meaning O reparse (new_initialized O s k) finish (rename_ast r ast) = renamed_res (fun ts => ts) (exact_meaning O reparse (new_initialized O s k) finish ast).
Proof.
  intros H1 H2 H3. unfold exact_meaning. rewrite rounds_renamed, ReproProofs.all_some_map. destruct (all_some (rounds ast)) as [rs|] eqn:Er; [|reflexivity]. cbn [option_map].
  assert (Hin : forall items, In items rs -> In (Some items) (rounds ast)) by (intros items Hit; rewrite (NestedProofs.all_some_in _ _ Er); apply in_map, Hit).
  cbn [rename_ast ast_block]. rewrite (mapM_end _ (round_outcome O reparse (new_initialized O s k) (ast_block ast))).
  - destruct (mapM _ rs); reflexivity.
  - intros items Hit. apply Hin in Hit. destruct (H1 items Hit) as [Ha Hc]. apply round_end; [exact Ha|intros p Hp; exact (H2 items p Hit Hp)|exact Hc|intros bs b Hb; exact (H3 items bs b Hit Hb)].
Qed.
End Blocks.

(** ** Ids *)
Lemma bindings_erased s k items : bindings O (new_initialized O s k) items = bindings O (new_initialized O s 0) (map_items erase items).
Proof. apply erased_bindings. symmetry. apply erase_twice. Qed.
Lemma meaning_erased reparse s k finish ast : exact_meaning O reparse (new_initialized O s k) finish ast = exact_meaning O reparse (new_initialized O s 0) finish (erase_ast ast).
Proof.
  unfold exact_meaning, erase_ast. rewrite rounds_map, ReproProofs.all_some_map. destruct (all_some (rounds ast)) as [rs|]; [|reflexivity]. cbn [option_map map_ast ast_block].
  assert (E : mapM (round_outcome O reparse (new_initialized O s k) (ast_block ast)) rs = mapM (round_outcome O reparse (new_initialized O s 0) (ast_block ast)) (map (map_items erase) rs)).
  { induction rs as [|items rs IH]; [reflexivity|]. cbn [map mapM]. rewrite IH. unfold round_outcome at 1 3. rewrite bindings_erased. reflexivity. }
  rewrite E. reflexivity.
Qed.
Lemma round_erased (ast : raw_ast (list stmt)) items : In (Some items) (rounds (erase_ast ast)) -> exists its, In (Some its) (rounds ast) /\ items = map_items erase its.
Proof. unfold erase_ast. rewrite rounds_map. intros H. apply in_map_iff in H as ([its|] & Ei & H); [|discriminate]. cbn in Ei. injection Ei as <-. exists its. split; [exact H|reflexivity]. Qed.
Lemma erased_names items : map fst (map_items erase items) = map fst items.
Proof. unfold map_items. rewrite map_map. reflexivity. Qed.
End Definitions.

Section Uses.
Context (O : oracles) (P : parsers) (Y : syntax) (r : naming) (A : names_alike O P r) (N : renames r O P Y) (Hf : faithful O (reparse Y)).
Let R : one_to_one r := alike_one_to_one _ _ _ A.

Theorem use_end uses i u ast uses' j u' : nth_error uses i = Some u -> p_ast (inv_parsed (invocation_for O P u)) = Ok (Some ast) ->
  nth_error uses' j = Some u' -> u_source u' = rename_source r (u_source u) -> u_seed u' = u_seed u -> prefix_of (u_source (hd u' uses')) = prefix_of (u_source (hd u uses)) ->
  (forall x, In x item_keywords -> ~ In x (ast_aliases ast)) -> scoped_use O r ast -> scoped_parts O r ast -> values_kept O r (new_initialized O (u_seed u) (u_first_id u)) ast ->
  nth_error (expand_uses O P Y uses') j = option_map (rename_failure r) (nth_error (expand_uses O P Y uses) i).
Proof.
  intros Hu Ha Hu' Hsrc Hs Hpre Hk Hsc Hsp Hv. destruct (source_renamed O P r A u u' ast Hsrc Ha) as (E1 & ast' & Ha' & E2).
  assert (Hk' : forall x, In x item_keywords -> ~ In x (ast_aliases ast')).
  { intros x Hx Hi. rewrite <- erased_aliases, E2, aliases_renamed, erased_aliases in Hi. apply in_map_iff in Hi as (y & Ey & Hy).
    assert (Hp : In x printed_words). { clear -Hx. cbn in Hx. repeat (destruct Hx as [<-|Hx]; [vm_compute; auto 20|]). destruct Hx. }
    pose proof (proj1 (Forall_forall _ _) (alike_printed _ _ _ A) x Hp) as Hsp'. apply (proj1 (Hsp' y)) in Ey. subst y. exact (Hk x Hx Hy). }
  rewrite (OutcomeProofs.use_exact O Y P uses i u ast Hf Hu Ha Hk), (OutcomeProofs.use_exact O Y P uses' j u' ast' Hf Hu' Ha' Hk'). cbn [option_map]. f_equal.
  assert (Er : raised (invocation_for O P u') = raised (invocation_for O P u)) by (unfold raised; rewrite E1; reflexivity).
  rewrite Hpre, Er, Hs, (meaning_erased O (reparse Y) (u_seed u) (u_first_id u') _ ast'), (meaning_erased O (reparse Y) (u_seed u) (u_first_id u) _ ast), E2.
  rewrite (meaning_end O r R (reparse Y) Hf (alike_printed _ _ _ A) (renames_ident _ _ _ _ N) (renames_reparse _ _ _ _ N)).
  - destruct (exact_meaning _ _ _ _ _); reflexivity.
  - intros items Hi. apply round_erased in Hi as (its & Hi & ->). destruct (Hsc its Hi) as [H1 H2]. split; [apply erased_before, H1|]. rewrite erased_names. exact H2.
  - intros items p Hi Hp. apply round_erased in Hi as (its & Hi & ->). rewrite erased_names. exact (Hsp its p Hi Hp).
  - intros items bs b Hi Hb. apply round_erased in Hi as (its & Hi & ->). rewrite <- (bindings_erased O (u_seed u) (u_first_id u)) in Hb. exact (Hv its bs b Hi Hb).
Qed.

Theorem use_unread uses i u uses' j u' : nth_error uses i = Some u -> nth_error uses' j = Some u' -> u_source u' = rename_source r (u_source u) ->
  nth_error (expand_uses O P Y uses) i = Some SyntaxError -> nth_error (expand_uses O P Y uses') j = Some SyntaxError.
Proof.
  intros Hu Hu' Hsrc H. apply (use_syntax O P Y uses i u Hu) in H. apply (use_syntax O P Y uses' j u' Hu').
  destruct A as [R' W F HH B]. assert (E : exists p, inv_parsed (invocation_for O P u') = rename_parsed r p /\ erase_parsed p = erase_parsed (inv_parsed (invocation_for O P u))).
  { unfold invocation_for, invocation_of. rewrite Hsrc. destruct (u_source u) as [ts|ts|attr item]; cbn [rename_source inv_parsed].
    - rewrite (func_rename r P (known O) HH F B). eexists. split; [reflexivity|]. apply func_macro_same.
    - rewrite (func_rename r P (known O) HH F B). eexists. split; [reflexivity|]. apply func_macro_same.
    - rewrite (attr_rename r P (known O) HH F B). eexists. split; [reflexivity|]. apply attr_macro_same. }
  destruct E as (p & E1 & E2). rewrite E1. cbn [rename_parsed p_ast]. apply (f_equal p_ast) in E2. cbn [erase_parsed p_ast] in E2. rewrite H in E2. destruct (p_ast p) as [[a|]|e|m]; try discriminate. reflexivity.
Qed.
End Uses.
