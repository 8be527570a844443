(** Spans and invisible groups: what uses come to (SpanCodeMacroProofs, ReportProofs and
    SpanKeywordsProofs with the parser of SpanInvisible). *)
From Coq Require Import String Lia.
From Verif Require Import Base BaseFacts Token Types Values Ast Env Eval Item Expand Deprecation Interpreter Parse Macro SpecScope SpecElab SpecItem SpecMacro SpecDeprecation
  SpecParse SpecRepro MacroProofs InterpreterProofs ElabFacts MeaningProofs Failures InvisibleMacro InvisibleIds SpanTokens SpanWalker SpanValues SpanEval SpanItem SpanVisitor SpanDeprecation SpanParse SpanExpand
  SpanMacro SpecSpans SpanProofs SpecSpanEval SpanEvalProofs SpecSpanItem SpecSpanMacro SpanExpandProofs SpanMacroProofs SpecSpanUnroll SpanUnrollProofs SyntaxErrorProofs
  SpecReports ReportProofs SpecSpanCode SpanCodeProofs SpanCodeMacroProofs SpecSpanKeywords SpanKeywordsProofs
  SpanInvisible SpanInvisibleMacro SpanInvisibleProofs SpanInvisibleRun SpecSpanInvisible SpanInvisibleSame SpanThrough.
Open Scope list_scope.

Section Uses.
Context (O : oracles) (SO : soracles) (P : parsers) (SP : sparsers) (SY : ssyntax).

(** For any way of parsing. *)
Lemma run_any (inv : suse -> sinvocation) uses : forall t, calm t ->
  Forall2 (fun u o => exists s, comes_to O SO SY (Some s) (inv u) o /\
    warnings s = match sp_scope (sinv_parsed (inv u)) with Some true => [semicolon_warning] | _ => [] end)
    uses (snd (SpanMacro.srun O SO SY t (map inv uses))).
Proof.
  induction uses as [|u uses IH]; intros t Ht; [constructor|]. cbn [map SpanMacro.srun].
  destruct (core_service O SO SY t (inv u) Ht) as [Hc Hm]. destruct (scompose_core O SO SY t (inv u)) as [t1 o]. cbn [fst snd] in *.
  specialize (IH t1 Hc). destruct (SpanMacro.srun O SO SY t1 _) as [t2 os]. constructor; assumption.
Qed.
Lemma run_rejected (inv : suse -> sinvocation) uses :
  Forall2 (fun u o => forall ms, o = SSyntaxError ms <-> sp_ast (sinv_parsed (inv u)) = inr ms) uses (snd (SpanMacro.srun O SO SY None (map inv uses))).
Proof.
  induction (run_any inv uses None (or_introl eq_refl)) as [|u o us os (s & Hc & _) _ IH]; constructor; [|exact IH].
  intros ms. unfold comes_to in Hc. destruct (sp_ast (sinv_parsed (inv u))) as [ast|ms']; subst o.
  - split; [|discriminate]. destruct (sexecute _ _ _ _ _ _); discriminate.
  - split; intros H; injection H as ->; reflexivity.
Qed.
Lemma through_rejected uses : Forall2 (fun u o => forall ms, o = SSyntaxError ms <-> sp_ast (sinv_parsed (sinvocation_through O P SP u)) = inr ms)
  uses (sexpand_uses_through O SO P SP SY uses).
Proof. apply run_rejected. Qed.

Lemma through_said u : sreadable SP (su_source u) -> forall e, sp_ast (sinv_parsed (sinvocation_through O P SP u)) = inr e ->
  exists e', sp_ast (sinv_parsed (sinvocation_for O P SP (sflat_use u))) = inr e' /\ said_alike SP (su_source u) e e'.
Proof.
  destruct u as [[ts|ts|attr item] seed first n]; intros [Hf Ht] e He; cbn in He |- *; cbn [su_source source_part] in *.
  - exact (sfunc_messages P SP (known O) n ts Hf Ht e He).
  - exact (sfunc_messages P SP (known O) n ts Hf Ht e He).
  - exact (sattr_messages P SP (known O) n attr item (proj1 Hf) (proj2 Hf) Ht e He).
Qed.
Lemma through_read u : sreadable SP (su_source u) -> forall a, sp_ast (sinv_parsed (sinvocation_through O P SP u)) = inl a ->
  exists b, sp_ast (sinv_parsed (sinvocation_for O P SP (sflat_use u))) = inl b /\ same_sast (source_part (su_source u)) a b.
Proof.
  destruct u as [[ts|ts|attr item] seed first n]; intros [Hf Ht] a He; cbn in He |- *; cbn [su_source source_part] in *.
  - destruct (sfunc_through P SP (known O) n ts Hf Ht) as [_ H]. rewrite He in H. destruct (sp_ast (sparse_func_macro _ _ _ _ _)) as [b|]; [eauto|contradiction].
  - destruct (sfunc_through P SP (known O) n ts Hf Ht) as [_ H]. rewrite He in H. destruct (sp_ast (sparse_func_macro _ _ _ _ _)) as [b|]; [eauto|contradiction].
  - destruct (sattr_through P SP (known O) n attr item (proj1 Hf) (proj2 Hf) Ht) as [_ H]. rewrite He in H. destruct (sp_ast (sparse_attr_macro _ _ _ _ _ _)) as [b|]; [eauto|contradiction].
Qed.
Lemma rejected_alike uses : Forall (fun u => sreadable SP (su_source u)) uses ->
  Forall2 (fun u x => forall e, fst x = SSyntaxError e -> exists e', snd x = SSyntaxError e' /\ said_alike SP (su_source u) e e')
    uses (combine (sexpand_uses_through O SO P SP SY uses) (sexpand_uses O SO P SP SY (map sflat_use uses))) /\
  Forall2 (fun o o' => (exists e, o = SSyntaxError e) <-> exists e, o' = SSyntaxError e)
    (sexpand_uses_through O SO P SP SY uses) (sexpand_uses O SO P SP SY (map sflat_use uses)).
Proof.
  intros H. pose proof (through_rejected uses) as A. pose proof (run_rejected (sinvocation_for O P SP) (map sflat_use uses)) as B.
  unfold sexpand_uses. revert B. generalize (snd (SpanMacro.srun O SO SY None (map (sinvocation_for O P SP) (map sflat_use uses)))) as os'.
  induction A as [|u o us os Ho _ IH]; intros os' B; cbn [map] in B; inversion B as [|? o' ? os1 Ho' B']; subst; [split; constructor|].
  inversion H as [|? ? Hu Hus]; subst. destruct (IH Hus _ B') as [I1 I2]. split; [constructor; [|exact I1]|constructor; [|exact I2]].
  - cbn [fst snd]. intros e He. apply Ho in He. destruct (through_said u Hu e He) as (e' & He' & Hs). exists e'. split; [apply Ho', He'|exact Hs].
  - split; intros (e & He).
    + apply Ho in He. destruct (through_said u Hu e He) as (e' & He' & _). exists e'. apply Ho', He'.
    + apply Ho' in He. destruct (sp_ast (sinv_parsed (sinvocation_through O P SP u))) as [a|e'] eqn:E; [|exists e'; apply Ho; reflexivity].
      destruct (through_read u Hu a E) as (b & Eb & _). congruence.
Qed.

(** ** Code *)
Lemma through_scope u ast : sp_ast (sinv_parsed (sinvocation_through O P SP u)) = inl ast ->
  sp_scope (sinv_parsed (sinvocation_through O P SP u)) = Some (uses_semicolons (option_map plain_spec (sa_spec ast))).
Proof.
  assert (S : forall spec, suses_semicolons spec = uses_semicolons (option_map plain_spec spec)) by (intros [s|]; reflexivity).
  assert (F : forall sc m rest a, sp_ast (through_finish sc m rest a) = inl ast -> sp_scope (through_finish sc m rest a) = sc /\ a = ast).
  { intros sc m rest a. unfold through_finish. destruct (first_some m (left_over rest)); [discriminate|]. intros E. injection E as ->. split; reflexivity. }
  destruct u as [[ts|ts|attr item] seed first n]; cbn [sinvocation_through sinv_parsed su_source].
  1,2: unfold through_func_macro; destruct (through_header _ _ _ _ _) as [[[[loops spec] ts1] u1]|e]; [|discriminate];
    destruct (spre_block SP ts1) as [[[b k] u2]|]; [|discriminate]; cbv zeta; rewrite S;
    destruct (snext (sadvance k ts1)) as [i [t|]]; [destruct (is_separator (erase t)); [destruct (strailing_mixed t spec); [discriminate|]|]|];
    intros E; apply F in E as [-> <-]; reflexivity.
  unfold through_attr_macro. destruct (through_header _ _ _ _ _) as [[[[loops spec] ts1] u1]|e]; [|discriminate]. cbv zeta. rewrite S.
  destruct (through_skip_separator loops spec ts1) as [rest|e]; [|discriminate]. destruct (first_some u1 (left_over rest)); [discriminate|].
  destruct (spre_block SP _) as [[[b k] u2]|]; [|discriminate]. intros E. apply F in E as [-> <-]. reflexivity.
Qed.

Context (LP : spanless_parsers P SP).
Lemma through_numbers u ast : sp_ast (sinv_parsed (sinvocation_through O P SP u)) = inl ast -> NoDup (flat_map ids (ast_exprs (plain_ast (map erase_stmt) ast))).
Proof. intros H. apply (through_source O P (plain_use u)). rewrite <- (through_parsed_erase O P SP LP). unfold plain_parsed. cbn [p_ast]. rewrite H. reflexivity. Qed.

Lemma through_code (F : sfaithful SO (snodes SY)) (V : scovers SY) uses : Forall2 (fun u o => forall ast ts, o = SCode ts ->
    sp_ast (sinv_parsed (sinvocation_through O P SP u)) = inl ast ->
    exists rs codes mid, has_rounds ast rs /\
      Forall2 (fun items code => skept_code O SO (new_initialized O (su_seed u) (su_first_id u)) (sa_block ast) items = SOk code) rs codes /\
      alike mid (List.concat codes) /\
      ((semicolons ast /\ exists prefix, decorated (with_prefix prefix semicolon_warning) mid ts) \/ (~ semicolons ast /\ ts = mid)))
  uses (sexpand_uses_through O SO P SP SY uses).
Proof.
  assert (Hround : forall seed k s block items ts (rw : salias_spec * list pstmt), ss_items (fst rw) = items -> snd rw = block ->
    NoDup (item_ids (erase_spec items)) -> True ->
    sexecute_block_rewrite O SO SY (new_initialized O seed k) (Some s) rw = SOk ts ->
    exists code mid, skept_code O SO (new_initialized O seed k) block items = SOk code /\ alike mid code /\ adds s mid ts).
  { intros seed k s block items ts rw <- <- Hn _ E. unfold sexecute_block_rewrite in E. rewrite smake_substitutions_spec in E by exact Hn. unfold skept_code.
    destruct (sbindings O SO (new_initialized O seed k) (ss_items (fst rw))) as [bs|f z|p]; [|discriminate|discriminate]. cbn [sbind] in *. unfold ssubstitute in E.
    match type of E with sbind ?v _ = _ => destruct v as [b'|f z|p] eqn:Ev; [|discriminate|discriminate] end. cbn [sbind] in E. injection E as <-.
    destruct (emit_adds SY V s (pblock_tokens b')) as (mid & H1 & H2). eexists. exists mid. split; [reflexivity|]. split; [|exact H2].
    eapply alike_trans; [exact H1|]. exact (block_kept O SO _ _ (snodes SY) F _ _ Ev). }
  unfold sexpand_uses_through. induction (run_any (sinvocation_through O P SP) uses None (or_introl eq_refl)) as [|u o us os (s & Hc & Hw) _ IH]; constructor; [|exact IH].
  intros ast ts -> E. unfold comes_to in Hc. rewrite E in Hc. rewrite (through_scope u ast E) in Hw.
  change (sinv_seed (sinvocation_through O P SP u)) with (su_seed u) in Hc. change (sinv_first_id (sinvocation_through O P SP u)) with (su_first_id u) in Hc.
  match type of Hc with _ = match ?r with _ => _ end => destruct r as [ts'|f z|p] eqn:Ex; [|discriminate Hc|discriminate Hc] end. injection Hc as <-.
  destruct (execute_code O SO SY (fun _ => True) (skept_code O SO) (fun _ _ _ H => H) Hround _ _ _ _ _ (through_numbers u ast E) I Ex) as (rs & codes & mids & outs & H1 & -> & H2 & H3 & H4).
  exists rs, codes, (List.concat mids). split; [exact H1|]. split; [exact H2|]. split.
  { clear -H3. induction H3; [reflexivity|]. cbn [List.concat]. apply alike_app; assumption. }
  unfold uses_semicolons, semicolons in *. unfold adds in H4. destruct (sa_spec ast) as [spec|]; cbn [option_map plain_spec is_comma_used] in Hw.
  - destruct (ss_comma spec) as [[|]|] eqn:Ec; cbn [negb] in Hw; rewrite Hw in H4.
    1,3: right; split; [intros (z & Hz & Hc); injection Hz as <-; congruence|]; clear -H4; induction H4; [reflexivity|cbn [List.concat]; congruence].
    left. split; [eauto|]. exists (s_prefix s). apply decorated_concat. exact H4.
  - rewrite Hw in H4. right. split; [intros (z & Hz & _); discriminate|]. clear -H4; induction H4; [reflexivity|cbn [List.concat]; congruence].
Qed.

(** ** Compile errors *)
Lemma through_misfit uses : Forall2 (fun u o => forall ast m s, sp_ast (sinv_parsed (sinvocation_through O P SP u)) = inl ast -> has_misfit SO ast m s ->
    o = SCompileError (FType m) s) uses (sexpand_uses_through O SO P SP SY uses).
Proof.
  unfold sexpand_uses_through. induction (run_any (sinvocation_through O P SP) uses None (or_introl eq_refl)) as [|u o us os (t & Hc & _) _ IH]; constructor; [|exact IH].
  intros ast m s E Hm. unfold comes_to in Hc. rewrite E in Hc. rewrite Hc, (sexecute_misfit _ _ _ _ _ _ _ _ Hm). reflexivity.
Qed.
Lemma through_report (L : spanless O SO) (I : inherited SO) (IN : inherited_names (snodes SY)) uses : Forall2 (fun u o => forall f s, o = SCompileError f s ->
    exists ast t, sp_ast (sinv_parsed (sinvocation_through O P SP u)) = inl ast /\
      macro_report O SO SY (new_initialized O (su_seed u) (su_first_id u)) t ast f s) uses (sexpand_uses_through O SO P SP SY uses).
Proof.
  unfold sexpand_uses_through. induction (run_any (sinvocation_through O P SP) uses None (or_introl eq_refl)) as [|u o us os (t & Hc & _) _ IH]; constructor; [|exact IH].
  intros f s ->. unfold comes_to in Hc. destruct (sp_ast (sinv_parsed (sinvocation_through O P SP u))) as [ast|ms] eqn:E; [|discriminate Hc].
  exists ast, (Some t). split; [reflexivity|]. apply execute_report; [exact L|exact I|exact IN|exact (through_numbers u ast E)|].
  change (sinv_seed (sinvocation_through O P SP u)) with (su_seed u) in Hc. change (sinv_first_id (sinvocation_through O P SP u)) with (su_first_id u) in Hc.
  destruct (sexecute _ _ _ _ _ _); [discriminate Hc|injection Hc as -> ->; reflexivity|discriminate Hc].
Qed.
End Uses.
