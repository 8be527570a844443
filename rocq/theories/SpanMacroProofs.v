(** The macros do not depend on spans. *)
From Coq Require Import String.
From Verif Require Import Base BaseFacts Token Types Values Ast Env Eval Item Expand Deprecation Interpreter Parse Macro SpecElab SpecRepro MacroProofs Failures
  SpanTokens SpanWalker SpanValues SpanEval SpanItem SpanVisitor SpanDeprecation SpanParse SpanExpand SpanMacro
  SpecSpans SpecSpanEval SpecSpanItem SpecSpanMacro SpanEvalProofs SpanItemProofs SpanDeprecationProofs SpanParseProofs SpanExpandProofs.
Open Scope list_scope.

Section Macro.
Context (O : oracles) (SO : soracles) (P : parsers) (SP : sparsers) (Y : syntax) (SY : ssyntax).
Context (L : spanless O SO) (LP : spanless_parsers P SP) (LY : spanless_syntax Y SY).

Lemma substitute_erase t block bs : forget (map erase) (ssubstitute O SO SY t block bs) =
  substitute O Y t (map erase_stmt block) (erase_bindings bs).
Proof.
  unfold ssubstitute, substitute. apply (fbind (map erase_stmt)).
  - apply block_erase; [apply bindings_aliases|exact L|apply LY].
  - intros b _. cbn. rewrite erase_pforest, scope_emit_erase, (spanless_forest _ _ LY), erase_pblock. reflexivity.
Qed.
Lemma rewrite_run_erase seed n t rw : NoDup (item_ids (spec_items (fst (plain_rewrite (map erase_stmt) rw)))) ->
  forget (map erase) (sexecute_block_rewrite O SO SY (new_initialized O seed n) t rw) =
  execute_block_rewrite O Y (new_initialized O seed n) t (plain_rewrite (map erase_stmt) rw).
Proof.
  intros H. unfold sexecute_block_rewrite, execute_block_rewrite. apply (fbind erase_bindings).
  - destruct rw as [[items c] block]. apply (smake_substitutions_erase O SO seed n L items c H).
  - intros bs _. apply substitute_erase.
Qed.
Lemma execute_erase seed n t ast : NoDup (flat_map ids (SpecParse.ast_exprs (plain_ast (map erase_stmt) ast))) ->
  forget (map erase) (sexecute O SO SY (new_initialized O seed n) t ast) =
  execute O Y (new_initialized O seed n) t (plain_ast (map erase_stmt) ast).
Proof.
  intros H. unfold sexecute, execute. apply (fbind (map (plain_rewrite (map erase_stmt)))); [apply expand_erase|]. intros rws E.
  apply (fbind (map (map erase))); [|intros l _; cbn; rewrite concat_erase; reflexivity].
  apply forget_mapM. apply Forall_forall. intros rw Hin. apply rewrite_run_erase.
  assert (Hx : expand (plain_ast (map erase_stmt) ast) = Ok (map (plain_rewrite (map erase_stmt)) rws)) by (rewrite <- (expand_erase SO), E; reflexivity).
  assert (Hpart := expand_part _ _ _ Hx (in_map (plain_rewrite (map erase_stmt)) _ _ Hin)).
  rewrite item_ids_exprs. eapply part_NoDup; [apply part_flat_map; exact Hpart|exact H].
Qed.

Lemma parsed_erase s n : plain_parsed (match s with
    | SCompose ts | SComposeIdents ts => sparse_func_macro P SP (known O) n ts
    | SComposeItem attr item => sparse_attr_macro P SP (known O) n attr item end) =
  match erase_source s with
  | Compose ts | ComposeIdents ts => parse_func_macro P (known O) n ts
  | ComposeItem attr item => parse_attr_macro P (known O) n attr item
  end.
Proof. destruct s; cbn [erase_source]; [apply func_macro_erase|apply func_macro_erase|apply attr_macro_erase]; exact LP. Qed.

Lemma close_erase t o : close t (plain_output o) = second plain_output (sclose t o).
Proof. unfold close, sclose. destruct (scope_drop t); reflexivity. Qed.
Lemma output_erase r : plain_output (match r with SOk ts => SCode ts | SErr f s => SCompileError f s | SPanic p => SPanicked p end) =
  match forget (map erase) r with Ok ts => Code ts | Err e => CompileError e | Panic p => Panicked p end.
Proof. destruct r; reflexivity. Qed.
Lemma core_erase t u : compose_core O Y t (invocation_for O P (plain_use u)) = second plain_output (scompose_core O SO SY t (sinvocation_for O P SP u)).
Proof.
  unfold compose_core, scompose_core. destruct u as [s seed first n]. unfold invocation_for, plain_use, sinvocation_for.
  cbn [u_source u_seed u_first_id u_next_id su_source su_seed su_first_id su_next_id].
  unfold invocation_of, sinvocation_of. cbn [inv_prefix inv_parsed inv_seed inv_first_id sinv_prefix sinv_parsed sinv_seed sinv_first_id].
  destruct (scoped _) as [t2|e|p] eqn:Es; [|exfalso; revert Es; unfold scoped; destruct (maybe_set_global _ _); discriminate|reflexivity].
  fold (erase_source s). rewrite <- parsed_erase. set (p := match s with SCompose ts => _ | SComposeIdents ts => _ | SComposeItem a b => _ end).
  assert (Hids : forall ast, p_ast (plain_parsed p) = Ok (Some ast) -> NoDup (flat_map ids (SpecParse.ast_exprs ast))).
  { intros ast Hp. subst p. rewrite parsed_erase in Hp. apply (parsed_source O P seed first n (erase_source s) ast Hp). }
  change (run_parser (plain_parsed p) t2) with (run_parser {| p_scope := sp_scope p; p_ast := Ok None |} t2).
  destruct (run_parser _ t2) as [t3|e|q] eqn:Er.
  - cbn [plain_parsed p_ast]. cbn [plain_parsed p_ast] in Hids. destruct (sp_ast p) as [ast|e].
    + rewrite <- execute_erase by (apply Hids; reflexivity). rewrite <- close_erase, output_erase. reflexivity.
    + apply (close_erase t3 (SSyntaxError e)).
  - exfalso. revert Er. unfold run_parser. cbn [p_scope]. destruct (sp_scope p) as [b|]; [|discriminate]. unfold scoped. destruct t2; cbn [bind]; [|discriminate].
    destruct b; unfold scope_drop; repeat match goal with |- context [match ?x with _ => _ end] => destruct x; try discriminate end.
  - apply (close_erase t2 (SPanicked q)).
Qed.
Lemma run_erase invs : forall t, Interpreter.run O Y t (map (fun u => invocation_for O P (plain_use u)) invs) =
  second (map plain_output) (SpanMacro.srun O SO SY t (map (sinvocation_for O P SP) invs)).
Proof.
  induction invs as [|u invs IH]; intros t; [reflexivity|]. cbn [map Interpreter.run SpanMacro.srun]. rewrite core_erase.
  destruct (scompose_core O SO SY t (sinvocation_for O P SP u)) as [t1 o]. unfold second at 1. cbn [fst snd]. rewrite IH.
  destruct (SpanMacro.srun O SO SY t1 _) as [t2 os]. reflexivity.
Qed.
Lemma uses_erase uses : map plain_output (sexpand_uses O SO P SP SY uses) = expand_uses O P Y (map plain_use uses).
Proof. unfold sexpand_uses, expand_uses. rewrite map_map, run_erase. reflexivity. Qed.
End Macro.

Lemma uses_same O SO P SP Y SY : spanless O SO -> spanless_parsers P SP -> spanless_syntax Y SY ->
  forall uses uses', map plain_use uses = map plain_use uses' ->
  map plain_output (sexpand_uses O SO P SP SY uses) = map plain_output (sexpand_uses O SO P SP SY uses').
Proof. intros L LP LY uses uses' E. rewrite !(uses_erase O SO P SP Y SY L LP LY), E. reflexivity. Qed.
