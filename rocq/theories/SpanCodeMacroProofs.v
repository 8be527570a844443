(** Proofs about the spans of the generated code: warnings, rounds and uses. *)
From Coq Require Import String Lia.
From Verif Require Import Base BaseFacts Token Types Values Ast Env Eval Item Expand Deprecation Interpreter Parse Macro SpecScope SpecElab SpecItem SpecMacro SpecDeprecation
  SpecParse SpecRepro MacroProofs InterpreterProofs ElabFacts MeaningProofs Failures SpanTokens SpanWalker SpanValues SpanEval SpanItem SpanVisitor SpanDeprecation SpanParse SpanExpand
  SpanMacro SpecSpans SpanProofs SpecSpanEval SpanEvalProofs SpecSpanItem SpecSpanMacro SpanExpandProofs SpanMacroProofs SpecSpanUnroll SpanUnrollProofs SyntaxErrorProofs
  ReportProofs SpecSpanCode SpanCodeProofs.
Open Scope list_scope.

Lemma alike_app a b c d : alike a b -> alike c d -> alike (a ++ c) (b ++ d).
Proof. unfold alike. rewrite !map_app. congruence. Qed.
Lemma alike_trans a b c : alike a b -> alike b c -> alike a c.
Proof. unfold alike. congruence. Qed.

(** ** Warnings *)
Lemma decorated_refl w a : decorated w a a.
Proof. induction a; constructor; assumption. Qed.
Lemma decorated_app w a b c d : decorated w a b -> decorated w c d -> decorated w (a ++ c) (b ++ d).
Proof. induction 1; intros H'; cbn [app]; [exact H'|constructor; auto..]. Qed.
Lemma decorated_concat w l l' : Forall2 (decorated w) l l' -> decorated w (List.concat l) (List.concat l').
Proof. induction 1; cbn [List.concat]; [constructor|apply decorated_app; assumption]. Qed.

Section Warned.
Context (prefix : str) (w : warning).
Let W := with_prefix prefix w.
Lemma visited_decorated t : forall ws, Forall (eq w) ws ->
  Forall (eq w) (fst (svisit_tree prefix ws t)) /\ decorated W (ptree_tokens t) (ptree_tokens (snd (svisit_tree prefix ws t))).
Proof.
  assert (Each : forall l, Forall (fun t => forall ws, Forall (eq w) ws ->
      Forall (eq w) (fst (svisit_tree prefix ws t)) /\ decorated W (ptree_tokens t) (ptree_tokens (snd (svisit_tree prefix ws t)))) l ->
    forall ws, Forall (eq w) ws -> Forall (eq w) (fst (visit_each (svisit_tree prefix) ws l)) /\
      decorated W (flat_map ptree_tokens l) (flat_map ptree_tokens (snd (visit_each (svisit_tree prefix) ws l)))).
  { induction 1 as [|x l Hx _ IH]; intros ws Hw; [split; [exact Hw|constructor]|]. cbn [visit_each].
    destruct (Hx ws Hw) as [H1 H2]. destruct (svisit_tree prefix ws x) as [ws1 x']. cbn [fst snd] in *.
    destruct (IH ws1 H1) as [H3 H4]. destruct (visit_each _ ws1 l) as [ws2 l']. cbn [fst snd flat_map] in *. split; [exact H3|apply decorated_app; assumption]. }
  induction t as [t|d s l IH|a b l IH] using ptree_ind'; intros ws Hw; cbn [svisit_tree].
  - split; [exact Hw|apply decorated_refl].
  - specialize (Each l IH ws Hw). destruct (visit_each _ ws l) as [ws' l']. cbn [fst snd ptree_tokens] in *. destruct Each as [H1 H2]. split; [exact H1|]. unfold sgroup. constructor; [exact H2|constructor].
  - unfold sprocess_deprecations. destruct (pop ws) as [[w' ws']|] eqn:Ep.
    + assert (Hp : w' = w /\ Forall (eq w) ws').
      { unfold pop in Ep. destruct (rev ws) as [|y r] eqn:Er; [discriminate|]. 
        assert (Hr : Forall (eq w) (rev ws)) by (apply Forall_rev; exact Hw). rewrite Er in Hr. inversion Hr as [|? ? Hy Hr' E1]. subst.
        match type of Ep with Some (?a, ?b) = _ => idtac end. injection Ep as <- <-. split; [reflexivity|apply Forall_rev; assumption]. }
      destruct Hp as [-> Hw']. destruct (_ || _).
      * specialize (Each l IH ws Hw). destruct (visit_each _ ws l) as [ws2 l']. cbn [fst snd ptree_tokens] in *. destruct Each as [H1 H2]. split; [exact H1|]. apply decorated_app; [apply decorated_refl|exact H2].
      * specialize (Each l IH ws' Hw'). destruct (visit_each _ ws' l) as [ws2 l']. cbn [fst snd ptree_tokens] in *. destruct Each as [H1 H2]. split; [exact H1|].
        unfold pattrs_tokens. rewrite flat_map_app, <- app_assoc. apply decorated_app; [apply decorated_refl|]. exact (decorated_here W _ _ H2).
    + specialize (Each l IH ws Hw). destruct (visit_each _ ws l) as [ws2 l']. cbn [fst snd ptree_tokens] in *. destruct Each as [H1 H2]. split; [exact H1|]. apply decorated_app; [apply decorated_refl|exact H2].
Qed.
Lemma emit_decorated s f : warnings s = [w] -> s_prefix s = prefix -> decorated W (pforest_tokens f) (pforest_tokens (sscope_emit (Some s) f)).
Proof.
  intros Hs Hp. cbn [sscope_emit]. unfold semit. rewrite Hs, Hp. cbn [rev app].
  assert (G : forall l ws, Forall (eq w) ws -> decorated W (flat_map ptree_tokens l) (flat_map ptree_tokens (snd (visit_each (svisit_tree prefix) ws l)))).
  { induction l as [|x l IH]; intros ws Hw; [constructor|]. cbn [visit_each]. destruct (visited_decorated x ws Hw) as [H1 H2]. destruct (svisit_tree prefix ws x) as [ws1 x'].
    cbn [fst snd] in *. specialize (IH ws1 H1). destruct (visit_each _ ws1 l) as [ws2 l']. cbn [fst snd flat_map] in *. apply decorated_app; assumption. }
  apply G. constructor; [reflexivity|constructor].
Qed.
End Warned.

(** ** Rounds *)
Section Code.
Context (O : oracles) (SO : soracles) (P : parsers) (SP : sparsers) (SY : ssyntax) (L : spanless O SO) (LP : spanless_parsers P SP)
  (F : sfaithful SO (snodes SY)) (V : scovers SY).

(** What a service adds: nothing without warnings, attributes for the one. *)
Definition adds (s : service) (a b : list stt) : Prop :=
  match warnings s with
  | [] => b = a
  | [w] => decorated (with_prefix (s_prefix s) w) a b
  | _ => True
  end.
Lemma emit_adds s ts : exists mid, alike mid ts /\ adds s mid (pforest_tokens (sscope_emit (Some s) (sas_forest SY ts))).
Proof.
  exists (pforest_tokens (sas_forest SY ts)). split; [apply V|]. unfold adds. destruct (warnings s) as [|w [|w' ws]] eqn:E; [|apply emit_decorated; auto|exact I].
  cbn [sscope_emit]. unfold semit. rewrite E. reflexivity.
Qed.

Lemma sbindings_names seed k items bs : sbindings O SO (new_initialized O seed k) items = SOk bs -> map fst bs = map fst items.
Proof.
  intros H. pose proof (sbindings_erase O SO seed k L items) as E. rewrite H in E. cbn in E. symmetry in E. apply bindings_names in E.
  unfold erase_bindings, erase_spec in E. rewrite !map_map in E. cbn [fst] in E. exact E.
Qed.
Lemma round_emit seed k s block items ts (rw : salias_spec * list pstmt) : ss_items (fst rw) = items -> snd rw = block ->
  NoDup (item_ids (erase_spec items)) -> (forall x, In x item_keywords -> ~ In x (map fst items)) ->
  sexecute_block_rewrite O SO SY (new_initialized O seed k) (Some s) rw = SOk ts ->
  exists code mid, sround_code O SO (new_initialized O seed k) block items = SOk code /\ alike mid code /\ adds s mid ts.
Proof.
  intros <- <- Hn Hk E. unfold sexecute_block_rewrite in E. rewrite smake_substitutions_spec in E by exact Hn. unfold sround_code.
  destruct (sbindings O SO (new_initialized O seed k) (ss_items (fst rw))) as [bs|f z|p] eqn:Eb; [|discriminate|discriminate]. cbn [sbind] in *. unfold ssubstitute in E.
  match type of E with sbind ?v _ = _ => destruct v as [b'|f z|p] eqn:Ev; [|discriminate|discriminate] end. cbn [sbind] in E. injection E as <-.
  destruct (emit_adds s (pblock_tokens b')) as (mid & H1 & H2). eexists. exists mid. split; [reflexivity|]. split; [|exact H2].
  eapply alike_trans; [exact H1|]. eapply (block_emit O SO _ _ (snodes SY) F); [|exact Ev].
  intros y Hkk. cbn. assert (assoc_str y bs = None) as ->; [|reflexivity]. pose proof (assoc_erase y bs) as He.
  rewrite assoc_none in He; [destruct (assoc_str y bs); [discriminate|reflexivity]|]. unfold erase_bindings. rewrite map_map. cbn [fst].
  change (~ In y (map fst bs)). rewrite (sbindings_names _ _ _ _ Eb). auto.
Qed.

(** ** Uses *)
Lemma round_aliases (ast : sraw_ast (list pstmt)) rs items x : has_rounds ast rs -> In items rs -> In x (map fst items) -> In x (sast_aliases ast).
Proof.
  intros Hr Hin Hx. unfold has_rounds in Hr. unfold sast_aliases, own_sitems in *. destruct (sa_loops ast) as [loops|].
  - apply (Forall2_in_r _ _ _ _ Hr) in Hin as (c & _ & its & Hf & ->). rewrite map_app in Hx. apply in_or_app. apply in_app_or in Hx as [Hx|Hx]; [left|right; destruct (sa_spec ast); exact Hx].
    clear Hr. induction Hf as [|l ls v vs items rest Hv _ IH]; [destruct Hx|]. rewrite map_app in Hx. cbn [flat_map]. apply in_or_app.
    apply in_app_or in Hx as [Hx|Hx]; [left|right; exact (IH Hx)]. destruct Hv as [a e|a z e _]; cbn [pattern_aliases]; [exact Hx|].
    apply in_map_iff in Hx as ([y e'] & <- & Hy). apply in_combine_l in Hy. exact Hy.
  - subst rs. destruct Hin as [<-|[]]. apply in_or_app. right. destruct (sa_spec ast); exact Hx.
Qed.

(** For any account [rc] of the code of a round whose aliases are [good]. *)
Section Rounds.
Context (good : list str -> Prop) (rc : Env.environment -> list pstmt -> list sitem -> sres (list stt)).
Context (Hdown : forall l l', incl l l' -> good l' -> good l).
Context (Hround : forall seed k s block items ts (rw : salias_spec * list pstmt), ss_items (fst rw) = items -> snd rw = block ->
  NoDup (item_ids (erase_spec items)) -> good (map fst items) ->
  sexecute_block_rewrite O SO SY (new_initialized O seed k) (Some s) rw = SOk ts ->
  exists code mid, rc (new_initialized O seed k) block items = SOk code /\ alike mid code /\ adds s mid ts).
Lemma execute_code seed k s ast ts : NoDup (flat_map ids (ast_exprs (plain_ast (map erase_stmt) ast))) ->
  good (sast_aliases ast) ->
  sexecute O SO SY (new_initialized O seed k) (Some s) ast = SOk ts ->
  exists rs codes mids outs, has_rounds ast rs /\ ts = List.concat outs /\
    Forall2 (fun items code => rc (new_initialized O seed k) (sa_block ast) items = SOk code) rs codes /\
    Forall2 alike mids codes /\ Forall2 (adds s) mids outs.
Proof.
  intros Hnd Hkw E. destruct (rounds_or SO ast) as [(rs & Hr)|(m & s' & Hm)].
  2:{ rewrite (sexecute_misfit O SO SY _ (Some s) ast m s' Hm) in E. discriminate. }
  rewrite (sexecute_rounds O SO SY _ (Some s) ast rs Hr) in E. exists rs.
  assert (Hin : Forall (fun items => NoDup (item_ids (erase_spec items)) /\ good (map fst items)) rs).
  { apply Forall_forall. intros items Hi. split; [exact (round_ids SO ast _ items Hnd Hr Hi)|]. apply (Hdown _ (sast_aliases ast)); [|exact Hkw]. intros x. exact (round_aliases _ _ _ _ Hr Hi). }
  assert (G : forall ts, sin_sequence (map (fun items => sexecute O SO SY (new_initialized O seed k) (Some s) (sround_ast (sa_block ast) items)) rs) = SOk ts ->
    exists codes mids outs, ts = List.concat outs /\
      Forall2 (fun items code => rc (new_initialized O seed k) (sa_block ast) items = SOk code) rs codes /\
      Forall2 alike mids codes /\ Forall2 (adds s) mids outs).
  { clear Hr E ts. induction Hin as [|items rs (Hn & Hk) _ IH]; intros ts E.
    - injection E as <-. exists [], [], []. repeat constructor.
    - cbn [map sin_sequence] in E. rewrite <- (round_sexecute O SO SY _ (Some s) (sa_block ast) items ({| ss_items := items; ss_comma := Some true |}, sa_block ast) eq_refl eq_refl) in E.
      match type of E with sbind ?r _ = _ => destruct r as [a|f z|p] eqn:Ea; [|discriminate|discriminate] end. cbn [sbind] in E.
      match type of E with sbind ?r _ = _ => destruct r as [b|f z|p] eqn:Eb; [|discriminate|discriminate] end. cbn [sbind] in E. injection E as <-.
      destruct (Hround _ _ _ (sa_block ast) items _ ({| ss_items := items; ss_comma := Some true |}, sa_block ast) eq_refl eq_refl Hn Hk Ea) as (code & mid & H1 & H2 & H3). destruct (IH _ eq_refl) as (codes & mids & outs & -> & H4 & H5 & H6).
      exists (code :: codes), (mid :: mids), (a :: outs). repeat split; try (constructor; assumption). }
  destruct (G ts E) as (codes & mids & outs & H). exists codes, mids, outs. split; [exact Hr|exact H].
Qed.

End Rounds.

(** The service that a use runs with. *)
Lemma core_service t inv : calm t -> calm (fst (scompose_core O SO SY t inv)) /\
  exists s, comes_to O SO SY (Some s) inv (snd (scompose_core O SO SY t inv)) /\
    warnings s = match sp_scope (sinv_parsed inv) with Some true => [semicolon_warning] | _ => [] end.
Proof.
  intros Ht. split; [apply core_calm, Ht|]. destruct inv as [prefix [sc ast] seed first]. unfold scompose_core, comes_to. cbn [sinv_prefix sinv_parsed sinv_seed sinv_first_id sp_scope sp_ast].
  destruct Ht as [->|(q & ->)]; destruct sc as [[|]|]; cbn; (destruct ast as [a|e]; [eexists; split; reflexivity|]);
    (exists {| warnings := [semicolon_warning]; borrowed := 0; s_prefix := [] |}; split; reflexivity) ||
    (exists {| warnings := []; borrowed := 0; s_prefix := [] |}; split; reflexivity).
Qed.
Lemma run_service uses : forall t, calm t ->
  Forall2 (fun u o => exists s, comes_to O SO SY (Some s) (sinvocation_for O P SP u) o /\
    warnings s = match sp_scope (sinv_parsed (sinvocation_for O P SP u)) with Some true => [semicolon_warning] | _ => [] end)
    uses (snd (SpanMacro.srun O SO SY t (map (sinvocation_for O P SP) uses))).
Proof.
  induction uses as [|u uses IH]; intros t Ht; [constructor|]. cbn [map SpanMacro.srun].
  destruct (core_service t (sinvocation_for O P SP u) Ht) as [Hc Hm]. destruct (scompose_core O SO SY t (sinvocation_for O P SP u)) as [t1 o]. cbn [fst snd] in *.
  specialize (IH t1 Hc). destruct (SpanMacro.srun O SO SY t1 _) as [t2 os]. constructor; assumption.
Qed.
Lemma scope_semicolons u ast : sp_ast (sinv_parsed (sinvocation_for O P SP u)) = inl ast ->
  sp_scope (sinv_parsed (sinvocation_for O P SP u)) = Some (uses_semicolons (option_map plain_spec (sa_spec ast))).
Proof.
  destruct u as [s seed first n]. unfold sinvocation_for, sinvocation_of. cbn [sinv_parsed su_source su_seed su_first_id su_next_id].
  set (p := match s with SCompose ts => _ | SComposeIdents ts => _ | SComposeItem a b => _ end). intros E.
  assert (Hp : p_ast (plain_parsed p) = Ok (Some (plain_ast (map erase_stmt) ast))) by (cbn [plain_parsed p_ast]; rewrite E; reflexivity).
  change (sp_scope p) with (p_scope (plain_parsed p)). subst p. rewrite (parsed_erase O P SP LP) in *.
  exact (header_scope O P seed first n (erase_source s) _ Hp).
Qed.

Lemma uses_rounds (good : list str -> Prop) rc : (forall l l', incl l l' -> good l' -> good l) ->
  (forall seed k s block items ts (rw : salias_spec * list pstmt), ss_items (fst rw) = items -> snd rw = block ->
    NoDup (item_ids (erase_spec items)) -> good (map fst items) ->
    sexecute_block_rewrite O SO SY (new_initialized O seed k) (Some s) rw = SOk ts ->
    exists code mid, rc (new_initialized O seed k) block items = SOk code /\ alike mid code /\ adds s mid ts) ->
  forall uses, Forall2 (fun u o => forall ast ts, o = SCode ts ->
    sp_ast (sinv_parsed (sinvocation_for O P SP u)) = inl ast ->
    good (sast_aliases ast) ->
    exists rs codes mid, has_rounds ast rs /\
      Forall2 (fun items code => rc (new_initialized O (su_seed u) (su_first_id u)) (sa_block ast) items = SOk code) rs codes /\
      alike mid (List.concat codes) /\
      ((semicolons ast /\ exists prefix, decorated (with_prefix prefix semicolon_warning) mid ts) \/ (~ semicolons ast /\ ts = mid)))
  uses (sexpand_uses O SO P SP SY uses).
Proof.
  intros Hdown Hround uses. unfold sexpand_uses. induction (run_service uses None (or_introl eq_refl)) as [|u o us os (s & Hc & Hw) _ IH]; constructor; [|exact IH].
  intros ast ts -> E Hkw. unfold comes_to in Hc. rewrite E in Hc. rewrite (scope_semicolons u ast E) in Hw.
  change (sinv_seed (sinvocation_for O P SP u)) with (su_seed u) in Hc. change (sinv_first_id (sinvocation_for O P SP u)) with (su_first_id u) in Hc.
  match type of Hc with _ = match ?r with _ => _ end => destruct r as [ts'|f z|p] eqn:Ex; [|discriminate Hc|discriminate Hc] end. injection Hc as <-.
  destruct (execute_code good rc Hdown Hround _ _ _ _ _ (parsed_ids O P SP LP u ast E) Hkw Ex) as (rs & codes & mids & outs & H1 & -> & H2 & H3 & H4).
  exists rs, codes, (List.concat mids). split; [exact H1|]. split; [exact H2|]. split.
  { clear -H3. induction H3; [reflexivity|]. cbn [List.concat]. apply alike_app; assumption. }
  unfold uses_semicolons, semicolons in *. unfold adds in H4. destruct (sa_spec ast) as [spec|]; cbn [option_map plain_spec is_comma_used] in Hw.
  - destruct (ss_comma spec) as [[|]|] eqn:Ec; cbn [negb] in Hw; rewrite Hw in H4.
    1,3: right; split; [intros (z & Hz & Hc); injection Hz as <-; congruence|]; clear -H4; induction H4; [reflexivity|cbn [List.concat]; congruence].
    left. split; [eauto|]. exists (s_prefix s). apply decorated_concat. exact H4.
  - rewrite Hw in H4. right. split; [intros (z & Hz & _); discriminate|]. clear -H4; induction H4; [reflexivity|cbn [List.concat]; congruence].
Qed.
Lemma uses_code uses : Forall2 (fun u o => forall ast ts, o = SCode ts ->
    sp_ast (sinv_parsed (sinvocation_for O P SP u)) = inl ast ->
    (forall x, In x item_keywords -> ~ In x (sast_aliases ast)) ->
    exists rs codes mid, has_rounds ast rs /\
      Forall2 (fun items code => sround_code O SO (new_initialized O (su_seed u) (su_first_id u)) (sa_block ast) items = SOk code) rs codes /\
      alike mid (List.concat codes) /\
      ((semicolons ast /\ exists prefix, decorated (with_prefix prefix semicolon_warning) mid ts) \/ (~ semicolons ast /\ ts = mid)))
  uses (sexpand_uses O SO P SP SY uses).
Proof.
  refine (uses_rounds (fun l => forall x, In x item_keywords -> ~ In x l) (sround_code O SO) _ round_emit uses).
  intros l l' Hi H x Hx Hl. exact (H x Hx (Hi x Hl)).
Qed.
End Code.
