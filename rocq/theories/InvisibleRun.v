(** What is generated from input with invisible groups: rounds, uses, the instance. *)
From Coq Require Import String Lia.
From Verif Require Import Base BaseFacts Token Types Values Ast Env Item AliasSubstitution Deprecation Interpreter Parse Macro InvisibleParse InvisibleMacro
  SpecSubst SubstFacts SpecItem SpecElab ElabProofs SpecRepro ReproProofs SpecMacro MeaningProofs SpecParse MacroProofs SpecDeprecation InterpreterProofs
  SpecOutcome OutcomeProofs OriginProofs LoopAlgebra
  SpecInvisible InvisibleProofs InvisibleSame InvisibleInstance InvisibleTop SpecInvisibleRun InvisibleElab InvisibleEmit InvisibleStages.
Open Scope list_scope.

Lemma ids_over F e : ids (over_expr F e) = ids e.
Proof.
  induction e as [n v|n x args raw IH] using expr_ind'; [reflexivity|]. cbn [over_expr ids]. f_equal. f_equal.
  - induction IH as [|e l H _ IHl]; [reflexivity|]. cbn [map flat_map]. rewrite H, IHl. reflexivity.
  - destruct raw as [[? ?]|]; reflexivity.
Qed.
Lemma item_ids_over F items : item_ids (map_items (over_expr F) items) = item_ids items.
Proof. unfold item_ids, map_items. induction items as [|[x e] l IH]; [reflexivity|]. cbn [map flat_map fst snd]. rewrite ids_over, IH. reflexivity. Qed.
Lemma names_over f items : map fst (map_items f items) = map fst items.
Proof. unfold map_items. rewrite map_map. reflexivity. Qed.
Lemma rounds_over {B C} F (G : B -> C) a : rounds (over_ast F G a) = map (option_map (map_items (over_expr F))) (rounds a).
Proof. rewrite <- rounds_map. reflexivity. Qed.
Lemma same_rounds a b : same_ast a b ->
  option_map (map (map_items (over_expr flats))) (all_some (rounds a)) = option_map (map (map_items (over_expr flats))) (all_some (rounds b)).
Proof. intros H. rewrite <- !all_some_map, <- !(rounds_over flats block_reading), H. reflexivity. Qed.

Local Notation same_result := SpecInvisibleRun.same_result.
Section Run.
Context (O : oracles) (Y : syntax) (D : list tt -> Prop) (L : sees_through O Y D).
Definition same_code (a b : list tt) : Prop := flats a = flats b.

Lemma round_alike seed k T block block' items items' (rw rw' : block_rewrite (list stmt)) :
  with_items block items rw -> with_items block' items' rw' ->
  map_items (over_expr flats) items = map_items (over_expr flats) items' -> NoDup (item_ids items') ->
  Forall (fun it => expr_in D (snd it)) items -> Forall (fun it => expr_in D (snd it)) items' ->
  block_reading block = block_reading block' -> Forall (part_in D) (block_parts block) -> Forall (part_in D) (block_parts block') ->
  (forall x, In x item_keywords -> ~ In x (map fst items')) ->
  same_result same_code (execute_block_rewrite O Y (new_initialized O seed k) T rw) (execute_block_rewrite O Y (new_initialized O seed k) T rw').
Proof.
  intros (Hb & Hi) (Hb' & Hi') E Hn He He' Er Hp Hp' Hk. unfold execute_block_rewrite.
  rewrite !make_substitutions_spec; [|rewrite Hi'; exact Hn|rewrite Hi, <- (item_ids_over flats), E, item_ids_over; exact Hn]. rewrite Hi, Hi', Hb, Hb'.
  pose proof (bindings_alike O Y D L seed k items items' E He He') as Ha.
  destruct (bindings O (new_initialized O seed k) items) as [bs|e|p] eqn:Eb, (bindings O (new_initialized O seed k) items') as [bs'|e'|p'] eqn:Eb'; cbn [same_result] in Ha; try contradiction; cbn [bind]; try exact Ha.
  unfold substitute. assert (Hkb : forall x, In x item_keywords -> assoc_str x bs = None).
  { intros x Hx. apply assoc_none. rewrite (bindings_names _ _ _ _ Eb), <- (names_over (over_expr flats)), E, names_over. exact (Hk x Hx). }
  pose proof (blocks_alike O Y D L bs bs' Ha block block' Hkb Er Hp Hp') as Hv. cbv beta zeta in Hv.
  destruct (visit_block O (fun x => assoc_str x bs) (reparse Y) block), (visit_block O (fun x => assoc_str x bs') (reparse Y) block'); cbn [same_result] in Hv; try contradiction; cbn [bind same_result]; try exact Hv.
  unfold same_code. pose proof (through_forest _ _ _ L _ _ Hv) as Hf. destruct T as [s|]; cbn [scope_emit]; [apply emit_flat; exact Hf|].
  rewrite !forest_flat, Hf. reflexivity.
Qed.

Lemma execute_alike seed k T a b : same_ast a b -> ast_in D a -> ast_in D b -> NoDup (flat_map ids (ast_exprs b)) ->
  (forall x, In x item_keywords -> ~ In x (ast_aliases b)) ->
  same_result same_code (execute O Y (new_initialized O seed k) T a) (execute O Y (new_initialized O seed k) T b).
Proof.
  intros E (Ha & Hpa) (Hb & Hpb) Hn Hk. unfold execute. pose proof (same_rounds _ _ E) as Er. pose proof (expand_rounds a) as Hx. pose proof (expand_rounds b) as Hx'.
  assert (Eb : block_reading (ast_block a) = block_reading (ast_block b)) by (apply (f_equal (@ast_block _)) in E; exact E).
  destruct (all_some (rounds a)) as [rs|] eqn:Ea, (all_some (rounds b)) as [rs'|] eqn:Eb'; try discriminate Er; [|rewrite Hx, Hx'; reflexivity].
  cbn [option_map] in Er. assert (Er' : map (map_items (over_expr flats)) rs = map (map_items (over_expr flats)) rs') by congruence. clear Er.
  destruct Hx as (rws & Hx & HF), Hx' as (rws' & Hx' & HF'). rewrite Hx, Hx'. cbn [bind].
  assert (G1 : forall items, In items rs -> Forall (fun it => expr_in D (snd it)) items) by (intros items Hin; eapply (round_items a); eassumption).
  assert (G2 : forall items, In items rs' -> Forall (fun it => expr_in D (snd it)) items) by (intros items Hin; eapply (round_items b); eassumption).
  assert (G3 : forall items, In items rs' -> NoDup (item_ids items)).
  { intros items Hin. apply (round_ids b); [exact Hn|congruence|]. eapply MeaningProofs.all_some_in; eassumption. }
  assert (G4 : forall items, In items rs' -> forall x, In x item_keywords -> ~ In x (map fst items)).
  { intros items Hin x Hx1 Hx2. apply (Hk x Hx1). eapply MeaningProofs.round_aliases; eassumption. }
  clear Ea Eb' Hx Hx' E.
  assert (M : same_result (Forall2 same_code) (mapM (execute_block_rewrite O Y (new_initialized O seed k) T) rws) (mapM (execute_block_rewrite O Y (new_initialized O seed k) T) rws')).
  { revert rs' rws' HF' Er' G2 G3 G4. induction HF as [|items rw rs rws Hw HF IH]; intros rs' rws' HF' Er' G2 G3 G4; destruct HF' as [|items' rw' rs' rws' Hw' HF']; try discriminate Er'; [constructor|].
    cbn [map] in Er'. injection Er' as E1 E2. cbn [mapM].
    pose proof (round_alike seed k T _ _ _ _ _ _ Hw Hw' E1 (G3 _ (or_introl eq_refl)) (G1 _ (or_introl eq_refl)) (G2 _ (or_introl eq_refl)) Eb Hpa Hpb (G4 _ (or_introl eq_refl))) as R.
    specialize (IH (fun i H => G1 i (or_intror H)) _ _ HF' E2 (fun i H => G2 i (or_intror H)) (fun i H => G3 i (or_intror H)) (fun i H => G4 i (or_intror H))).
    destruct (execute_block_rewrite O Y _ T rw), (execute_block_rewrite O Y _ T rw'); cbn [same_result] in R; try contradiction; cbn [bind]; try exact R.
    destruct (mapM _ rws), (mapM _ rws'); cbn [same_result] in IH; try contradiction; cbn [bind]; try exact IH. constructor; assumption. }
  destruct (mapM _ rws), (mapM _ rws'); cbn [same_result] in M; try contradiction; cbn [bind same_result]; try exact M.
  unfold same_code. induction M as [|x y l l' H _ IHM]; [reflexivity|]. cbn [concat]. rewrite !flats_app, H, IHM. reflexivity.
Qed.

Context (P : parsers).
(** Parsing. *)
Definition same_parsed (p q : parsed) : Prop := InvisibleSame.same_result flats block_reading p q.
Lemma parsed_alike u : readable P (u_source u) -> same_parsed (inv_parsed (invocation_through O P u)) (inv_parsed (invocation_for O P (flat_use u))).
Proof.
  intros H. unfold invocation_through, invocation_for, invocation_of, flat_use. cbn [inv_parsed u_source u_next_id].
  assert (Hf : forall ts, all_fine ts = true /\ (forall r, part_of ts r -> reads_all_through P r) ->
     same_parsed (parse_func_macro P (known O) (u_next_id u) ts) (Parse.parse_func_macro P (known O) (u_next_id u) (flats ts))).
  { intros ts [H1 H2]. apply (func_same P (known O) (part_of ts) flats block_reading); try (intros s0 Hs0; eapply agree_through, (proj1 (H2 _ Hs0)); fail).
    - intros s. apply part_fine, H1.
    - apply part_next.
    - apply part_enter.
    - apply part_group.
    - apply part_front.
    - intros s _. symmetry. apply flats_idem.
    - intros s Hs. apply agree_through, (proj2 (H2 _ Hs)).
    - apply part_all. }
  destruct (u_source u) as [ts|ts|attr item]; cbn [flat_source readable] in *; [apply Hf, H|apply Hf, H|].
  destruct H as (H1 & H2 & Ht).
  assert (Hi' : all_fine [TGroup Brace item] = true) by (unfold all_fine; cbn [forallb fine]; unfold all_fine in H2; rewrite H2; reflexivity).
  apply (attr_same P (known O) (fun s => part_of attr s \/ part_of [TGroup Brace item] s) flats block_reading); try (intros s0 Hs0; eapply agree_through, (proj1 (Ht _ Hs0)); fail).
  - intros s [H|H]; [exact (part_fine _ _ H1 H)|exact (part_fine _ _ Hi' H)].
  - intros t r [H|H]; [left|right]; exact (part_next _ _ _ H).
  - intros xs r [H|H]; [left|right]; exact (part_enter _ _ _ H).
  - intros d xs r [H|H]; [left|right]; exact (part_group _ _ _ _ H).
  - intros a b [H|H]; [left|right]; exact (part_front _ _ _ H).
  - intros s _. symmetry. apply flats_idem.
  - intros s Hs. apply agree_through, (proj2 (Ht _ Hs)).
  - left. apply part_all.
  - right. apply part_all.
  - intros b k v b' k' v' E E'. pose proof (proj2 (Ht _ (or_intror (part_all _)))) as T. unfold reads_through in T.
    change (flats [TGroup Brace item]) with [TGroup Brace (flats item)] in T. rewrite E, E' in T. destruct T as (_ & _ & Q & ->). cbn in Q.
    destruct k as [|[|k]]; cbn; lia.
Qed.

(** The parsed inputs, with and without the groups, are among the streams; no alias is a
    keyword of an item. *)
Lemma outcome_alike prefix u : readable P (u_source u) ->
  (forall a, p_ast (inv_parsed (invocation_through O P u)) = Ok (Some a) -> ast_in D a) ->
  (forall a, p_ast (inv_parsed (invocation_for O P (flat_use u))) = Ok (Some a) -> ast_in D a /\ forall x, In x item_keywords -> ~ In x (ast_aliases a)) ->
  same_output (outcome O Y prefix (invocation_through O P u)) (outcome O Y prefix (invocation_for O P (flat_use u))).
Proof.
  intros Hr Ha Hb. destruct (parsed_alike u Hr) as [S E]. unfold outcome.
  assert (Ht : thread_for prefix (invocation_through O P u) = thread_for prefix (invocation_for O P (flat_use u))) by (unfold thread_for, raised; rewrite S; reflexivity).
  rewrite Ht. pose proof (parsed_source O P (u_seed u) (u_first_id u) (u_next_id u) (flat_source (u_source u))) as Hn.
  change (invocation_of O P (u_seed u) (u_first_id u) (u_next_id u) (flat_source (u_source u))) with (invocation_for O P (flat_use u)) in Hn.
  change (inv_seed (invocation_through O P u)) with (u_seed u). change (inv_first_id (invocation_through O P u)) with (u_first_id u).
  change (inv_seed (invocation_for O P (flat_use u))) with (u_seed u). change (inv_first_id (invocation_for O P (flat_use u))) with (u_first_id u).
  destruct (p_ast (inv_parsed (invocation_through O P u))) as [[a|]| |], (p_ast (inv_parsed (invocation_for O P (flat_use u)))) as [[b|]| |]; try contradiction; [|exact I].
  destruct (Hb b eq_refl) as [Hb1 Hb2].
  pose proof (execute_alike (u_seed u) (u_first_id u) (thread_for prefix (invocation_for O P (flat_use u))) a b E (Ha a eq_refl) Hb1 (proj1 (Hn b eq_refl)) Hb2) as R.
  destruct (execute O Y _ _ a), (execute O Y _ _ b); cbn [same_result] in R; try contradiction; exact R.
Qed.
Theorem uses_alike uses : Forall (fun u => readable P (u_source u)) uses ->
  Forall (fun u => forall a, p_ast (inv_parsed (invocation_through O P u)) = Ok (Some a) -> ast_in D a) uses ->
  Forall (fun u => forall a, p_ast (inv_parsed (invocation_for O P (flat_use u))) = Ok (Some a) ->
    ast_in D a /\ forall x, In x item_keywords -> ~ In x (ast_aliases a)) uses ->
  Forall2 same_output (expand_uses_through O P Y uses) (expand_uses O P Y (map flat_use uses)).
Proof.
  intros H1 H2 H3. unfold expand_uses_through, expand_uses. destruct uses as [|u r]; [constructor|]. cbn [map]. rewrite !run_fresh. cbn [snd].
  change (invocation_through O P u :: map (invocation_through O P) r) with (map (invocation_through O P) (u :: r)).
  change (invocation_for O P (flat_use u) :: map (invocation_for O P) (map flat_use r)) with (map (invocation_for O P) (map flat_use (u :: r))).
  assert (Ep : inv_prefix (invocation_for O P (flat_use u)) = inv_prefix (invocation_through O P u)) by (cbn; destruct (u_source u); reflexivity).
  rewrite Ep. generalize (inv_prefix (invocation_through O P u)). intros prefix. clear Ep. revert H1 H2 H3. generalize (u :: r). intros l. induction l as [|v l IH]; intros H1 H2 H3; [constructor|].
  inversion H1; inversion H2; inversion H3; subst. cbn [map]. constructor; [apply outcome_alike; assumption|apply IH; assumption].
Qed.
End Run.

(** ** The instance *)
Theorem instance_sees : forall O Y, faithful O (reparse Y) -> blocks_braced Y ->
  sees_through (seeing O) (seeing_syntax Y) (fun _ => True).
Proof.
  intros O Y [F1 F2 F3] Hb.
  assert (Hp : forall f : list tt -> option (list tt), parses_alike (fun _ => True) (fun ts => f (flats ts))).
  { intros f a b (_ & _ & E). cbv beta. rewrite E. destruct (f (flats b)); [|exact I]. split; [exact I|split; [exact I|reflexivity]]. }
  constructor; try (intros; exact I); cbn [seeing seeing_syntax parse_ident parse_lit_str parse_lit_int parse_path parse_type Values.parse_expr to_string path_segments reparse as_forest];
    try (intros a b (_ & _ & E); rewrite E; reflexivity); try apply Hp.
  - intros k. apply (Hp (reparse Y k)).
  - intros k ts ts' H. apply F1 in H. subst ts'. apply flats_idem.
  - intros ts x H. apply F2 in H. exact H.
  - intros ts v p H. apply F3 in H. exact H.
  - intros ts b H. apply Hb in H. exact H.
  - intros a b E. rewrite E. reflexivity.
Qed.
Theorem instance_keeps : forall O Y, faithful O (reparse Y) -> blocks_braced Y ->
  sees_through (seeing O) (keeping_syntax Y) (fun _ => True).
Proof.
  intros O Y HF Hb. destruct (instance_sees O Y HF Hb) as [H1 H2 H3 H4 H5 H6 H7 H8 H9 H10 H11 H12 H13 H14 H15 H16 H17 H18 H19].
  constructor; try assumption; cbn [keeping_syntax reparse as_forest].
  - intros k a b (_ & _ & E). destruct k; cbn [keeping_syntax reparse]; rewrite E; destruct (reparse Y _ (flats b)); try exact I; (split; [exact I|split; [exact I|try exact E; reflexivity]]).
  - intros k ts ts' H. destruct k; try (destruct (reparse Y _ (flats ts)); [injection H as <-; reflexivity|discriminate H]).
    apply (faithful_node _ _ HF) in H. subst ts'. apply flats_idem.
  - intros a b E. assert (G : forall l, flat_forest (map DTok l) = map DTok (flats l)).
    { induction l as [|t l IH]; [reflexivity|]. unfold flat_forest, flats in *. cbn [map flat_map flat_tree]. rewrite map_app, IH. reflexivity. }
    rewrite !G, E. reflexivity.
Qed.
Lemma expr_in_all e : expr_in (fun _ => True) e.
Proof.
  induction e as [n v|n x args raw IH] using expr_ind'; [exact I|]. cbn [expr_in]. split; [|destruct raw as [[? ?]|]; exact I].
  induction IH as [|e l H _ IHl]; [exact I|split; assumption].
Qed.
Lemma ast_in_all a : ast_in (fun _ => True) a.
Proof.
  split; apply Forall_forall; intros x _; [apply expr_in_all|]. destruct x; cbn; try exact I. apply Forall_forall. intros; exact I.
Qed.
Lemma instance_readable P s : within P -> source_fine s ->
  readable (reading_through P) s.
Proof.
  intros W H. assert (G : forall r, reads_all_through (reading_through P) r).
  { intros r. split; [apply instance_transparent, W|]. destruct W as (_ & _ & _ & _ & _ & W). apply through_reads, W. }
  destruct s; cbn [readable source_fine] in *; intuition.
Qed.
(** So with functions that see through all groups the code is the same for all inputs. *)
Theorem instance_uses : forall O P Y uses, faithful O (reparse Y) -> within P ->
  blocks_braced Y ->
  Forall (fun u => source_fine (u_source u)) uses ->
  Forall (fun u => forall a, p_ast (inv_parsed (invocation_for (seeing O) (reading_through P) (flat_use u))) = Ok (Some a) ->
    forall x, In x item_keywords -> ~ In x (ast_aliases a)) uses ->
  Forall2 same_output (expand_uses_through (seeing O) (reading_through P) (seeing_syntax Y) uses)
    (expand_uses (seeing O) (reading_through P) (seeing_syntax Y) (map flat_use uses)).
Proof.
  intros O P Y uses Hf W Hb H1 H2. apply (uses_alike _ _ _ (instance_sees O Y Hf Hb)).
  - eapply Forall_impl; [|exact H1]. intros u. apply instance_readable, W.
  - apply Forall_forall. intros u _ a _. apply ast_in_all.
  - eapply Forall_impl; [|exact H2]. intros u H a Ha. split; [apply ast_in_all|exact (H a Ha)].
Qed.

Theorem keeping_uses : forall O P Y uses, faithful O (reparse Y) -> within P -> blocks_braced Y ->
  Forall (fun u => source_fine (u_source u)) uses ->
  Forall (fun u => forall a, p_ast (inv_parsed (invocation_for (seeing O) (reading_through P) (flat_use u))) = Ok (Some a) ->
    forall x, In x item_keywords -> ~ In x (ast_aliases a)) uses ->
  Forall2 same_output (expand_uses_through (seeing O) (reading_through P) (keeping_syntax Y) uses)
    (expand_uses (seeing O) (reading_through P) (keeping_syntax Y) (map flat_use uses)).
Proof.
  intros O P Y uses Hf W Hb H1 H2. apply (uses_alike _ _ _ (instance_keeps O Y Hf Hb)).
  - eapply Forall_impl; [|exact H1]. intros u. apply instance_readable, W.
  - apply Forall_forall. intros u _ a _. apply ast_in_all.
  - eapply Forall_impl; [|exact H2]. intros u H a Ha. split; [apply ast_in_all|exact (H a Ha)].
Qed.

From Verif Require Import RustGrammar RustInstance RustLaws.
Theorem rust_blocks : blocks_braced rust_syntax.
Proof.
  intros ts b H. cbn [rust_syntax reparse] in H. unfold rust_reparse, whole, all, nt_ in H. change depth with (S 399) in H.
  assert (E : forall n l, RustGrammar.go block_ok (S n) NBlock l = match group Brace l with Some (b, r) => if block_ok b then Some r else None | None => None end) by reflexivity.
  rewrite E in H. destruct (group Brace ts) as [[g r]|] eqn:Eg; [|discriminate H]. destruct (block_ok g); [|discriminate H].
  destruct r; [|discriminate H]. injection H as <-. destruct ts as [|[| | |d g'] r]; try discriminate Eg. cbn [group] in Eg.
  destruct d; try discriminate Eg. injection Eg as <- ->. eauto.
Qed.
