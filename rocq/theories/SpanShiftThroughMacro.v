(** Moving spans through the macros on input with invisible groups. *)
From Coq Require Import String.
From Verif Require Import Base Token Types Values Ast Env Item Deprecation Interpreter Parse Macro SpecRepro Failures InvisibleInstance
  SpanTokens SpanWalker SpanValues SpanEval SpanItem SpanVisitor SpanDeprecation SpanInstance SpanParse SpanExpand SpanMacro SpanDress SpecSpanInvisible
  SpanInvisible SpanInvisibleMacro SpanInvisibleInstance SpecSpanShift SpanShiftEval SpanShiftParse SpanShiftItem SpanShiftMacro SpanShiftInstance SpanShiftThrough.
Open Scope list_scope.

(** ** One use among others *)
Section Among.
Context (g : span -> span) (O : oracles) (SO : soracles) (SP : sparsers) (SY : ssyntax) (M : moving g SO SP SY).
Lemma run_among i b : forall a t, exists os o os',
  snd (srun O SO SY t (a ++ i :: b)) = os ++ o :: os' /\ snd (srun O SO SY t (a ++ shift_inv g i :: b)) = os ++ shift_output g o :: os' /\ List.length os = List.length a.
Proof.
  induction a as [|x a IH]; intros t; cbn [app srun].
  - rewrite (core_shift g O SO SP SY M). destruct (scompose_core O SO SY t i) as [t1 o]. cbn [fst snd]. destruct (srun O SO SY t1 b) as [t2 os].
    exists [], o, os. repeat split.
  - destruct (scompose_core O SO SY t x) as [t1 o1]. destruct (IH t1) as (os & o & os' & H1 & H2 & H3). destruct (srun _ _ _ t1 (a ++ i :: b)) as [t2 l2].
    destruct (srun _ _ _ t1 (a ++ shift_inv g i :: b)) as [t3 l3]. exists (o1 :: os), o, os'. cbn in *. rewrite H1, H2, H3. repeat split.
Qed.
Lemma use_among P a u b : exists os o os',
  sexpand_uses O SO P SP SY (a ++ u :: b) = os ++ o :: os' /\ sexpand_uses O SO P SP SY (a ++ shift_use g u :: b) = os ++ shift_output g o :: os' /\
  List.length os = List.length a.
Proof.
  unfold sexpand_uses. rewrite !map_app. cbn [map]. rewrite (invocation_shift g O SO P SP SY M), <- (map_length (sinvocation_for O P SP) a). apply run_among.
Qed.
End Among.

Section Macro.
Context (g : span -> span) (O : oracles) (SO : soracles) (P : parsers) (SP : sparsers) (SY : ssyntax) (M : moving g SO SP SY).
Lemma invocation_through_shift u : sinvocation_through O P SP (shift_use g u) = shift_inv g (sinvocation_through O P SP u).
Proof.
  unfold sinvocation_through, shift_inv. cbn [shift_use su_source su_seed su_first_id su_next_id sinv_prefix sinv_parsed sinv_seed sinv_first_id].
  rewrite erase_source_shift. f_equal. destruct (su_source u); cbn [shift_source].
  - apply through_func_macro_shift; [exact (moving_call_site _ _ _ _ M)|exact (moving_parsers _ _ _ _ M)].
  - apply through_func_macro_shift; [exact (moving_call_site _ _ _ _ M)|exact (moving_parsers _ _ _ _ M)].
  - apply through_attr_macro_shift; [exact (moving_call_site _ _ _ _ M)|exact (moving_parsers _ _ _ _ M)].
Qed.
Lemma use_through_among a u b : exists os o os',
  sexpand_uses_through O SO P SP SY (a ++ u :: b) = os ++ o :: os' /\ sexpand_uses_through O SO P SP SY (a ++ shift_use g u :: b) = os ++ shift_output g o :: os' /\
  List.length os = List.length a.
Proof.
  unfold sexpand_uses_through. rewrite !map_app. cbn [map]. rewrite invocation_through_shift, <- (map_length (sinvocation_through O P SP) a).
  apply (run_among g O SO SP SY M).
Qed.
End Macro.

Section Uses.
Context (O : oracles) (SO : soracles) (P : parsers) (SP : sparsers) (SY : ssyntax).
Lemma run_through_shift l : Forall (fun p => moving (fst p) SO SP SY) l -> forall t,
  snd (srun O SO SY t (map (sinvocation_through O P SP) (moved_uses l))) =
  map (fun p => shift_output (fst p) (snd p)) (combine (map fst l) (snd (srun O SO SY t (map (sinvocation_through O P SP) (map snd l))))).
Proof.
  induction 1 as [|[g u] l M _ IH]; intros t; [reflexivity|]. cbn [moved_uses map fst snd srun] in *.
  rewrite (invocation_through_shift g O SO P SP SY M), (core_shift g O SO SP SY M).
  destruct (scompose_core O SO SY t (sinvocation_through O P SP u)) as [t1 o]. cbn [fst snd]. specialize (IH t1). unfold moved_uses in IH.
  destruct (srun O SO SY t1 (map (sinvocation_through O P SP) (map (fun p => shift_use (fst p) (snd p)) l))) as [t2 os].
  destruct (srun O SO SY t1 (map (sinvocation_through O P SP) (map snd l))) as [t2' os']. cbn in IH |- *. rewrite IH. reflexivity.
Qed.
Lemma uses_through_shift l : Forall (fun p => moving (fst p) SO SP SY) l ->
  sexpand_uses_through O SO P SP SY (map (fun p => shift_use (fst p) (snd p)) l) =
  map (fun p => shift_output (fst p) (snd p)) (combine (map fst l) (sexpand_uses_through O SO P SP SY (map snd l))).
Proof. intros H. apply (run_through_shift l H None). Qed.
Lemma use_through_shift g u : moving g SO SP SY ->
  sexpand_uses_through O SO P SP SY [shift_use g u] = map (shift_output g) (sexpand_uses_through O SO P SP SY [u]).
Proof.
  intros M. assert (H := uses_through_shift [(g, u)] (Forall_cons (g, u) M (Forall_nil _))). cbn [map fst snd] in H. rewrite H.
  unfold sexpand_uses_through. cbn [map srun]. destruct (scompose_core _ _ _ _ _) as [t o]. reflexivity.
Qed.
Lemma uses_through_emitted_shift l : Forall (fun p => moving (fst p) SO SP SY) l ->
  map emitted (sexpand_uses_through O SO P SP SY (map (fun p => shift_use (fst p) (snd p)) l)) =
  map (fun p => option_map (shift (fst p)) (emitted (snd p))) (combine (map fst l) (sexpand_uses_through O SO P SP SY (map snd l))).
Proof. intros H. rewrite (uses_through_shift l H), map_map. apply map_ext. intros [g o]. apply emitted_shift. Qed.
Lemma uses_through_said_shift l : Forall (fun p => moving (fst p) SO SP SY) l ->
  map said (sexpand_uses_through O SO P SP SY (map (fun p => shift_use (fst p) (snd p)) l)) =
  map (fun p => shift_messages (fst p) (said (snd p))) (combine (map fst l) (sexpand_uses_through O SO P SP SY (map snd l))).
Proof. intros H. rewrite (uses_through_shift l H), map_map. apply map_ext. intros [g o]. apply said_shift. Qed.
Lemma uses_through_counted uses : List.length (sexpand_uses_through O SO P SP SY uses) = List.length uses.
Proof.
  unfold sexpand_uses_through. generalize (@None service) as t. induction uses as [|u uses IH]; intros t; [reflexivity|]. cbn [map srun].
  destruct (scompose_core _ _ _ _ _) as [t1 o]. specialize (IH t1). destruct (srun _ _ _ t1 _) as [t2 os]. cbn in *. congruence.
Qed.
End Uses.

(** ** Parsers that read through invisible groups *)
Section Instance.
Context (g : span -> span).
Lemma sflat_shift t : sflat (shift1 g t) = shift g (sflat t).
Proof.
  induction t as [x s|c j s|l s|d ts s IH] using stt_ind'; try reflexivity.
  assert (E : flat_map sflat (map (shift1 g) ts) = shift g (flat_map sflat ts)).
  { induction IH as [|t ts H _ IHl]; [reflexivity|]. cbn [flat_map map]. rewrite H, IHl. unfold shift. rewrite map_app. reflexivity. }
  destruct d; cbn [sflat shift1 shift map]; rewrite ?E; reflexivity.
Qed.
Lemma sflats_shift ts : sflats (shift g ts) = shift g (sflats ts).
Proof. unfold sflats, shift. induction ts as [|t ts IH]; [reflexivity|]. cbn [flat_map map]. rewrite map_app, sflat_shift, IH. reflexivity. Qed.
Lemma through_moves SP : moves_parsers g SP -> moves_parsers g (sreading_through SP).
Proof.
  intros [H1 H2 H3 H4 H5 H6 H7]. split; intros ts; cbn; unfold slit_through, snode_through, entered; rewrite ?erase_shift, ?sflats_shift, ?H1, ?H2, ?H3, ?H4, ?H5, ?H6;
    try (match goal with |- context [option_map _ (option_map _ (?f ?x ?y))] => destruct (f x y) as [[[[? ?] ?] ?]|] || destruct (f x y) as [[[? ?] ?]|] end; reflexivity).
  apply H7.
Qed.
Lemma reading_moves SO SP SY : moving g SO SP SY -> moving g SO (sreading_through SP) SY.
Proof. intros [H1 H2 H3 H4]. split; [exact H1|exact H2|apply through_moves, H3|exact H4]. Qed.
End Instance.

Section Later.
Context (O : oracles) (P : parsers) (Y : syntax) (seed first_id next_id : N).
Let outcome (s : ssource) : list soutput :=
  sexpand_uses_through O (dressed O) (reading_through P) (sreading_through (dressed_parsers P)) (dressed_syntax Y)
    [{| su_source := s; su_seed := seed; su_first_id := first_id; su_next_id := next_id |}].
Lemma outcome_through_later d s : outcome (shift_source (later d) s) = map (shift_output (later d)) (outcome s).
Proof.
  exact (use_through_shift O (dressed O) (reading_through P) (sreading_through (dressed_parsers P)) (dressed_syntax Y) (later d)
    {| su_source := s; su_seed := seed; su_first_id := first_id; su_next_id := next_id |} (reading_moves (later d) _ _ _ (dressed_moves (later d) eq_refl O P Y))).
Qed.
Lemma compose_through_later d n ts : n <> 0%N -> outcome (SCompose (numbered_all ts (n + d))) = map (shift_output (later d)) (outcome (SCompose (numbered_all ts n))).
Proof. intros H. rewrite <- outcome_through_later. cbn [shift_source]. rewrite numbered_all_later by exact H. reflexivity. Qed.
Lemma compose_item_through_later d n m attr item : n <> 0%N -> m <> 0%N ->
  outcome (SComposeItem (numbered_all attr (n + d)) (numbered_all item (m + d))) =
  map (shift_output (later d)) (outcome (SComposeItem (numbered_all attr n) (numbered_all item m))).
Proof. intros H1 H2. rewrite <- outcome_through_later. cbn [shift_source]. rewrite !numbered_all_later by assumption. reflexivity. Qed.
End Later.
