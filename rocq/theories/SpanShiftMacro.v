(** Moving spans through the macros. *)
From Coq Require Import String.
From Verif Require Import Base Token Types Values Ast Env Item Tuple CrossProduct Expand Deprecation Interpreter Parse Macro SpecRepro Failures
  SpanTokens SpanWalker SpanValues SpanEval SpanItem SpanVisitor SpanDeprecation SpanParse SpanExpand SpanMacro SpanExpandProofs
  SpecSpanShift SpanShiftEval SpanShiftParse SpanShiftItem.
Open Scope list_scope.

Section Shift.
Context (g : span -> span).
Notation shift := (shift g).
Notation rmap := (rmap g).

(** ** Expansion *)
Section Expand.
Context (SO : soracles) (C : g call_site = call_site) (MO : moves_oracles g SO).
Lemma lift_shift {A B} (f : A -> B) r : slift (map_res f r) = rmap f (slift r).
Proof. destruct r; cbn; rewrite ?C; reflexivity. Qed.
Lemma lift_same {A} (r : res A) : slift r = rmap (fun x => x) (slift r).
Proof. destruct r; cbn; rewrite ?C; reflexivity. Qed.
Lemma match_shift a s t : smatch_tuples a (g s) (map_tuple (shift_expr g) t) = rmap (fun x => x) (smatch_tuples a s t).
Proof.
  unfold smatch_tuples. apply (rbind g (fun x => x)); [apply lift_same|]. intros aks.
  apply (rbind g (map_tuple (shift_expr g))); [rewrite destructuring_map; apply lift_shift|]. intros eks.
  rewrite kinds_match_map. unfold map_tuple. rewrite map_length. destruct (Nat.eqb _ _); [|reflexivity]. destruct (kinds_match _ _); reflexivity.
Qed.
Lemma source_span_shift v : source_span SO (shift_source_value g v) = g (source_span SO v).
Proof. destruct v; [apply expr_span_shift; assumption|reflexivity]. Qed.
Lemma spec_items_shift al v : smake_spec_items SO al (shift_source_value g v) = rmap (map (shift_definition g)) (smake_spec_items SO al v).
Proof.
  assert (S := source_span_shift v).
  destruct al as [a|a], v as [e|s t]; cbn [shift_source_value smake_spec_items] in S |- *; try reflexivity; try (rewrite S; reflexivity).
  apply (rbind g (fun x => x)); [apply match_shift|]. intros _.
  apply (rbind g (fun x => x)); [apply lift_same|]. intros aliases.
  apply (rbind g (map (shift_expr g))); [rewrite recursive_map; apply lift_shift|]. intros es. cbn [SpanShiftEval.rmap]. f_equal.
  revert es. induction aliases as [|x l IH]; intros [|y es]; try reflexivity. cbn. rewrite IH. reflexivity.
Qed.
Lemma loop_items_shift loops : forall vals, sloop_items SO (map (shift_loop g) loops) (map (shift_source_value g) vals) =
  rmap (map (shift_definition g)) (sloop_items SO loops vals).
Proof.
  induction loops as [|l loops IH]; intros [|v vals]; try reflexivity. cbn [map sloop_items shift_loop sl_pattern].
  apply (rbind g (map (shift_definition g))); [apply spec_items_shift|]. intros items.
  apply (rbind g (map (shift_definition g))); [apply IH|]. intros rest. cbn. rewrite map_app. reflexivity.
Qed.
Definition shift_rewrite (x : salias_spec * list pstmt) := (shift_spec g (fst x), shift_block g (snd x)).
Lemma rewrite_shift ast loops vals : srewrite_for SO (shift_ast g (shift_block g) ast) (map (shift_loop g) loops) (map (shift_source_value g) vals) =
  rmap shift_rewrite (srewrite_for SO ast loops vals).
Proof.
  unfold srewrite_for. apply (rbind g (map (shift_definition g))); [apply loop_items_shift|]. intros items.
  destruct ast as [ls [[its c]|] b]; cbn; [unfold shift_rewrite, shift_spec; cbn; rewrite map_app|]; reflexivity.
Qed.
Lemma expand_loop_shift ast loops fuel : forall it,
  sexpand_loop SO fuel (shift_ast g (shift_block g) ast) (map (shift_loop g) loops) (map_cp (shift_source_value g) it) =
  rmap (map shift_rewrite) (sexpand_loop SO fuel ast loops it).
Proof.
  induction fuel as [|fuel IH]; intros it; [reflexivity|]. cbn [sexpand_loop].
  apply (rbind g (fun '(o, c') => (option_map (map (shift_source_value g)) o, map_cp (shift_source_value g) c'))); [rewrite next_map; apply lift_shift|].
  intros [[vals|] it']; [|reflexivity]. cbn [option_map]. apply (rbind g shift_rewrite); [apply rewrite_shift|]. intros rw.
  apply (rbind g (map shift_rewrite)); [apply IH|]. reflexivity.
Qed.
Lemma expand_shift ast : sexpand SO (shift_ast g (shift_block g) ast) = rmap (map shift_rewrite) (sexpand SO ast).
Proof.
  unfold sexpand. cbn [shift_ast sa_loops]. destruct (sa_loops ast) as [loops|] eqn:E; cbn [option_map].
  - replace (map sl_values (map (shift_loop g) loops)) with (map (map (shift_source_value g)) (map sl_values loops)) by (rewrite !map_map; reflexivity).
    rewrite from_vecs_map.
    replace (fold_right (fun v n => List.length v * n) 1 (map (map (shift_source_value g)) (map sl_values loops)))
      with (fold_right (fun v n => List.length v * n) 1 (map sl_values loops))
      by (induction (map sl_values loops) as [|v l IH]; [reflexivity|]; cbn; rewrite map_length, IH; reflexivity).
    rewrite <- expand_loop_shift. destruct ast; cbn in *; subst; reflexivity.
  - destruct ast as [ls [sp|] b]; reflexivity.
Qed.
End Expand.

(** ** The interpreter *)
Section Interpreter.
Context (O : oracles) (SO : soracles) (P : parsers) (SP : sparsers) (SY : ssyntax) (M : moving g SO SP SY).
Let C := moving_call_site _ _ _ _ M.
Let MO := moving_oracles _ _ _ _ M.
Let MP := moving_parsers _ _ _ _ M.
Let MY := moving_syntax _ _ _ _ M.

Lemma ssubstitute_shift t block subst : ssubstitute O SO SY t (shift_block g block) (shift_bindings g subst) = rmap shift (ssubstitute O SO SY t block subst).
Proof.
  unfold ssubstitute.
  replace (map (fun b => (fst b, erase_value (snd b))) (shift_bindings g subst)) with (map (fun b => (fst b, erase_value (snd b))) subst)
    by (unfold shift_bindings; rewrite map_map; apply map_ext; intros [x v]; cbn; rewrite erase_value_shift; reflexivity).
  apply (rbind g (shift_block g)).
  - apply visit_block_shift; [exact C| |exact MO|exact (moves_snodes _ _ MY)].
    intros x. unfold shift_bindings. rewrite assoc_str_shift. destruct (assoc_str x subst); [cbn; rewrite tokens_shift|]; reflexivity.
  - intros b. rewrite (block_tokens_shift g C), (moves_forest _ _ MY), (emit_shift g C), (forest_tokens_shift g). reflexivity.
Qed.
Lemma rewrite_block_shift env t rw : sexecute_block_rewrite O SO SY env t (shift_rewrite rw) = rmap shift (sexecute_block_rewrite O SO SY env t rw).
Proof.
  unfold sexecute_block_rewrite. apply (rbind g (shift_bindings g)); [apply substitutions_shift; assumption|]. intros s. apply ssubstitute_shift.
Qed.
Lemma execute_shift env t ast : sexecute O SO SY env t (shift_ast g (shift_block g) ast) = rmap shift (sexecute O SO SY env t ast).
Proof.
  unfold sexecute. apply (rbind g (map shift_rewrite)); [apply expand_shift; assumption|]. intros l.
  apply (rbind g (map shift)); [apply mapM_shift, all_same; intros; apply rewrite_block_shift|]. intros r. cbn. rewrite shift_concat. reflexivity.
Qed.

Lemma close_shift t o : sclose t (shift_output g o) = (fst (sclose t o), shift_output g (snd (sclose t o))).
Proof. unfold sclose. destruct (scope_drop t); reflexivity. Qed.
Definition shift_inv (i : sinvocation) : sinvocation :=
  {| sinv_prefix := sinv_prefix i; sinv_parsed := shift_parsed g (sinv_parsed i); sinv_seed := sinv_seed i; sinv_first_id := sinv_first_id i |}.
Lemma core_shift t i : scompose_core O SO SY t (shift_inv i) = (fst (scompose_core O SO SY t i), shift_output g (snd (scompose_core O SO SY t i))).
Proof.
  unfold scompose_core. cbn [shift_inv sinv_prefix sinv_parsed sinv_seed sinv_first_id shift_parsed sp_scope sp_ast].
  destruct (scoped _) as [t2| |]; [|cbn; rewrite C; reflexivity|reflexivity].
  destruct (run_parser _ t2) as [t3|e|p]; [|cbn [fst snd]; rewrite <- close_shift; cbn [shift_output]; rewrite C; reflexivity|apply (close_shift t2 (SPanicked p))].
  destruct (sp_ast (sinv_parsed i)) as [ast|e]; cbn [either]; [|apply (close_shift t3 (SSyntaxError e))].
  rewrite execute_shift. rewrite <- close_shift. f_equal. destruct (sexecute _ _ _ _ _ ast); reflexivity.
Qed.
Lemma erase_source_shift s : erase_source (shift_source g s) = erase_source s.
Proof. destruct s; cbn; rewrite ?erase_shift; reflexivity. Qed.
Lemma invocation_shift u : sinvocation_for O P SP (shift_use g u) = shift_inv (sinvocation_for O P SP u).
Proof.
  unfold sinvocation_for, sinvocation_of, shift_inv. cbn [shift_use su_source su_seed su_first_id su_next_id sinv_prefix sinv_parsed sinv_seed sinv_first_id].
  rewrite erase_source_shift. f_equal. destruct (su_source u); cbn [shift_source].
  - apply func_macro_shift; [exact C|exact MP].
  - apply func_macro_shift; [exact C|exact MP].
  - apply attr_macro_shift; [exact C|exact MP].
Qed.
End Interpreter.

(** ** What the compiler is given *)
Lemma said_shift o : said (shift_output g o) = shift_messages g (said o).
Proof. destruct o; reflexivity. Qed.
Lemma emitted_shift o : emitted (shift_output g o) = option_map shift (emitted o).
Proof.
  destruct o as [ts|ms|f s|p]; try reflexivity. cbn. f_equal. unfold SpecSpanShift.shift.
  apply flat_map_shift, all_same. intros m. reflexivity.
Qed.
End Shift.

(** ** Many uses, each moved in its own way *)
Section Uses.
Context (O : oracles) (SO : soracles) (P : parsers) (SP : sparsers) (SY : ssyntax).
Definition moved_uses (l : list ((span -> span) * suse)) : list suse := map (fun p => shift_use (fst p) (snd p)) l.
Lemma run_shift l : Forall (fun p => moving (fst p) SO SP SY) l -> forall t,
  snd (srun O SO SY t (map (sinvocation_for O P SP) (moved_uses l))) =
  map (fun p => shift_output (fst p) (snd p)) (combine (map fst l) (snd (srun O SO SY t (map (sinvocation_for O P SP) (map snd l))))).
Proof.
  induction 1 as [|[g u] l M _ IH]; intros t; [reflexivity|]. cbn [moved_uses map fst snd srun] in *.
  rewrite (invocation_shift g O SO P SP SY M), (core_shift g O SO SP SY M).
  destruct (scompose_core O SO SY t (sinvocation_for O P SP u)) as [t1 o]. cbn [fst snd]. specialize (IH t1). unfold moved_uses in IH.
  destruct (srun O SO SY t1 (map (sinvocation_for O P SP) (map (fun p => shift_use (fst p) (snd p)) l))) as [t2 os].
  destruct (srun O SO SY t1 (map (sinvocation_for O P SP) (map snd l))) as [t2' os']. cbn in IH |- *. rewrite IH. reflexivity.
Qed.
Lemma uses_shift l : Forall (fun p => moving (fst p) SO SP SY) l ->
  sexpand_uses O SO P SP SY (map (fun p => shift_use (fst p) (snd p)) l) =
  map (fun p => shift_output (fst p) (snd p)) (combine (map fst l) (sexpand_uses O SO P SP SY (map snd l))).
Proof. intros H. apply (run_shift l H None). Qed.
Lemma use_shift g u : moving g SO SP SY ->
  sexpand_uses O SO P SP SY [shift_use g u] = map (shift_output g) (sexpand_uses O SO P SP SY [u]).
Proof.
  intros M. assert (H := uses_shift [(g, u)] (Forall_cons (g, u) M (Forall_nil _))). cbn [map fst snd] in H. rewrite H.
  unfold sexpand_uses. cbn [map srun]. destruct (scompose_core _ _ _ _ _) as [t o]. reflexivity.
Qed.
End Uses.

Section Given.
Context (O : oracles) (SO : soracles) (P : parsers) (SP : sparsers) (SY : ssyntax).
Lemma uses_emitted_shift l : Forall (fun p => moving (fst p) SO SP SY) l ->
  map emitted (sexpand_uses O SO P SP SY (map (fun p => shift_use (fst p) (snd p)) l)) =
  map (fun p => option_map (shift (fst p)) (emitted (snd p))) (combine (map fst l) (sexpand_uses O SO P SP SY (map snd l))).
Proof. intros H. rewrite (uses_shift O SO P SP SY l H), map_map. apply map_ext. intros [g o]. apply emitted_shift. Qed.
Lemma uses_said_shift l : Forall (fun p => moving (fst p) SO SP SY) l ->
  map said (sexpand_uses O SO P SP SY (map (fun p => shift_use (fst p) (snd p)) l)) =
  map (fun p => shift_messages (fst p) (said (snd p))) (combine (map fst l) (sexpand_uses O SO P SP SY (map snd l))).
Proof. intros H. rewrite (uses_shift O SO P SP SY l H), map_map. apply map_ext. intros [g o]. apply said_shift. Qed.
Lemma uses_counted uses : List.length (sexpand_uses O SO P SP SY uses) = List.length uses.
Proof.
  unfold sexpand_uses. generalize (@None service) as t. induction uses as [|u uses IH]; intros t; [reflexivity|]. cbn [map srun].
  destruct (scompose_core _ _ _ _ _) as [t1 o]. specialize (IH t1). destruct (srun _ _ _ t1 _) as [t2 os]. cbn in *. congruence.
Qed.
End Given.
