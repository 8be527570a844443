(** On input with invisible groups the macros do not depend on spans, and give the compiler
    spans of the invocation only. *)
From Coq Require Import String.
From Verif Require Import Base BaseFacts Token Types Values Ast Env Eval Item Expand Deprecation Interpreter Parse Macro SpecElab SpecRepro SpecParse MacroProofs Failures
  SpanTokens SpanWalker SpanValues SpanEval SpanItem SpanVisitor SpanDeprecation SpanParse SpanExpand SpanMacro
  SpecSpans SpecSpanEval SpecSpanItem SpecSpanMacro SpanEvalProofs SpanItemProofs SpanDeprecationProofs SpanParseProofs SpanExpandProofs SpanMacroProofs SpanPlaces
  SpanInvisible SpanInvisibleMacro SpanInvisibleProofs InvisibleMacro InvisibleIds.
Open Scope list_scope.

(** ** Spans decide nothing *)
Section Macro.
Context (O : oracles) (SO : soracles) (P : parsers) (SP : sparsers) (Y : syntax) (SY : ssyntax).
Context (L : spanless O SO) (LP : spanless_parsers P SP) (LY : spanless_syntax Y SY).

Lemma through_parsed_erase u : plain_parsed (sinv_parsed (sinvocation_through O P SP u)) = inv_parsed (invocation_through O P (plain_use u)).
Proof. destruct u as [[ts|ts|attr item] seed first n]; [apply through_func_erase|apply through_func_erase|apply through_attr_erase]; exact LP. Qed.
Lemma through_ids u ast : sp_ast (sinv_parsed (sinvocation_through O P SP u)) = inl ast -> NoDup (flat_map ids (ast_exprs (plain_ast (map erase_stmt) ast))).
Proof.
  intros H. apply (through_source O P (plain_use u)). rewrite <- through_parsed_erase. unfold plain_parsed. cbn [p_ast]. rewrite H. reflexivity.
Qed.
Lemma through_core_erase t u : compose_core O Y t (invocation_through O P (plain_use u)) = second plain_output (scompose_core O SO SY t (sinvocation_through O P SP u)).
Proof.
  unfold compose_core, scompose_core. rewrite <- through_parsed_erase. assert (Hids := through_ids u).
  set (p := sinv_parsed (sinvocation_through O P SP u)) in *.
  replace (inv_prefix (invocation_through O P (plain_use u))) with (sinv_prefix (sinvocation_through O P SP u)) by (destruct u as [[]]; reflexivity).
  change (inv_seed (invocation_through O P (plain_use u))) with (su_seed u). change (inv_first_id (invocation_through O P (plain_use u))) with (su_first_id u).
  change (sinv_seed (sinvocation_through O P SP u)) with (su_seed u). change (sinv_first_id (sinvocation_through O P SP u)) with (su_first_id u).
  destruct (scoped _) as [t2|e|q] eqn:Es; [|exfalso; revert Es; unfold scoped; destruct (maybe_set_global _ _); discriminate|reflexivity].
  change (run_parser (plain_parsed p) t2) with (run_parser {| p_scope := sp_scope p; p_ast := Ok None |} t2).
  destruct (run_parser _ t2) as [t3|e|q] eqn:Er.
  - cbn [plain_parsed p_ast]. destruct (sp_ast p) as [ast|e].
    + rewrite <- (execute_erase O SO Y SY L LY) by (apply Hids; reflexivity). rewrite <- close_erase, output_erase. reflexivity.
    + apply (close_erase t3 (SSyntaxError e)).
  - exfalso. revert Er. unfold run_parser. cbn [p_scope]. destruct (sp_scope p) as [b|]; [|discriminate]. unfold scoped. destruct t2; cbn [bind]; [|discriminate].
    destruct b; unfold scope_drop; repeat match goal with |- context [match ?x with _ => _ end] => destruct x; try discriminate end.
  - apply (close_erase t2 (SPanicked q)).
Qed.
Lemma through_run_erase invs : forall t, Interpreter.run O Y t (map (fun u => invocation_through O P (plain_use u)) invs) =
  second (map plain_output) (SpanMacro.srun O SO SY t (map (sinvocation_through O P SP) invs)).
Proof.
  induction invs as [|u invs IH]; intros t; [reflexivity|]. cbn [map Interpreter.run SpanMacro.srun]. rewrite through_core_erase.
  destruct (scompose_core O SO SY t (sinvocation_through O P SP u)) as [t1 o]. unfold second at 1. cbn [fst snd]. rewrite IH.
  destruct (SpanMacro.srun O SO SY t1 _) as [t2 os]. reflexivity.
Qed.
Lemma through_uses_erase uses : map plain_output (sexpand_uses_through O SO P SP SY uses) = expand_uses_through O P Y (map plain_use uses).
Proof. unfold sexpand_uses_through, expand_uses_through. rewrite map_map, through_run_erase. reflexivity. Qed.
End Macro.
Lemma through_uses_same O SO P SP Y SY : spanless O SO -> spanless_parsers P SP -> spanless_syntax Y SY ->
  forall uses uses', map plain_use uses = map plain_use uses' ->
  map plain_output (sexpand_uses_through O SO P SP SY uses) = map plain_output (sexpand_uses_through O SO P SP SY uses').
Proof. intros L LP LY uses uses' E. rewrite !(through_uses_erase O SO P SP Y SY L LP LY), E. reflexivity. Qed.

(** ** Where the spans come from *)
Section Places.
Context (SO : soracles) (P : parsers) (SP : sparsers) (hf : str -> bool).
Context (IP : inherited_parsers SO SP).
Context (U : span -> Prop) (H0 : U call_site) (HJ : joins_in SO U).
Notation message_in := (message_in U).
Notation stream_in := (stream_in U).
Notation expr_in := (expr_in U).
Notation sum_in := (SpanPlaces.sum_in U).
Notation read_in := (SpanPlaces.read_in U).
Notation tok_in := (SpanPlaces.tok_in U).

Lemma sadvance_in k : forall ts, stream_in ts -> stream_in (sadvance k ts).
Proof.
  induction k as [|k IH]; intros ts H; [destruct ts; exact H|]. destruct ts as [|t ts]; [exact H|]. assert (H' := H). apply stream_cons in H' as [H1 H2].
  destruct t as [x s|c j s|l s|[] g s]; cbn [sadvance]; try (apply IH; exact H2). apply IH, stream_app. split; [|exact H2]. apply (group_in U) in H1. apply H1.
Qed.
Lemma snext_in_in t : Forall U (spans1 t) -> opt_in (fun y => Forall U (spans1 y)) (snd (snext_in t)).
Proof.
  induction t as [x s|c j s|l s|d ts s IH] using stt_ind'; intros H; try exact H. destruct d; try exact H. apply (group_in U) in H as (_ & _ & _ & H).
  cbn [snext_in]. match goal with |- context [let (_, _) := ?f ts in _] => assert (G : opt_in (fun y => Forall U (spans1 y)) (snd (f ts))) end.
  { clear s. induction IH as [|t ts Ht _ IH]; [exact Logic.I|]. apply stream_cons in H as [H1 H2]. specialize (Ht H1). specialize (IH H2).
    destruct (snext_in t) as [n [y|]]; [exact Ht|]. match goal with |- context [let (_, _) := ?x in _] => destruct x as [m o] end. exact IH. }
  match goal with |- context [let (_, _) := ?x in _] => destruct x as [m o] end. exact G.
Qed.
Lemma snext_seen ts : stream_in ts -> opt_in (fun y => Forall U (spans1 y)) (snd (snext ts)).
Proof.
  induction ts as [|t ts IH]; intros H; [exact Logic.I|]. apply stream_cons in H as [H1 H2]. assert (Ht := snext_in_in t H1). specialize (IH H2). cbn [snext].
  destruct (snext_in t) as [n [y|]]; [exact Ht|]. destruct (snext ts) as [m o]. exact IH.
Qed.
Lemma left_over_in ts : stream_in ts -> opt_in message_in (left_over ts).
Proof. intros H. unfold left_over. assert (G := snext_seen ts H). destruct (snd (snext ts)); [apply unexpected_in, G|exact Logic.I]. Qed.
Lemma through_until_in term ts : stream_in ts -> stream_in (through_until term ts).
Proof. induction ts as [|t ts IH]; intros H; [exact H|]. cbn [through_until]. destruct (match snd (snext _) with Some x => _ | None => _ end); [constructor|]. apply stream_cons in H as [Ht H]. apply stream_cons. auto. Qed.

Lemma through_attempts_in ts : stream_in ts -> Forall (fun o => forall c, o = Some c -> stream_in (sto_tokens (fst (fst c))) /\ opt_in message_in (snd c)) (through_attempts P SP ts).
Proof.
  intros H. assert (A := attempts_in SO P SP IP U H0 HJ ts H). unfold sattempts in A. unfold through_attempts. rewrite !Forall_cons_iff in A |- *.
  destruct A as (A1 & A2 & _ & _ & A5 & A6 & A7 & _). refine (conj A1 (conj A2 (conj _ (conj _ (conj A5 (conj A6 (conj A7 (Forall_nil _)))))))); intros c.
  - unfold through_underscore. assert (G := snext_seen ts H). destruct (snext ts) as [n [t|]]; [|discriminate]. destruct (_ || _); [|discriminate]. intros Hc. injection Hc as <-.
    split; [|exact Logic.I]. cbn. repeat constructor. apply (span_in U), G.
  - unfold through_ident. assert (G := snext_seen ts H). destruct (snext ts) as [n [[x s|? ? ?|? ?|? ? ?]|]]; try discriminate. destruct (ident_allowed P x); [|discriminate]. intros Hc. injection Hc as <-.
    split; [exact G|exact Logic.I].
Qed.
Lemma through_value_in term n ts : stream_in ts -> read_in (snd (through_value P SP term n ts)).
Proof.
  intros H. unfold through_value.
  assert (G : forall l, Forall (fun o => forall c, o = Some c -> stream_in (sto_tokens (fst (fst c))) /\ opt_in message_in (snd c)) l ->
    forall acc, opt_in (fun b => read_in (snd b)) (snd acc) -> opt_in (fun b => read_in (snd b)) (snd (fold_left (through_attempt term ts) l acc))).
  { induction 1 as [|o l Ho _ IH]; intros acc Ha; [exact Ha|]. cbn [fold_left]. apply IH. destruct acc as [m best]. unfold through_attempt.
    destruct (through_try_parse term ts o) as [[[v k] u]|] eqn:E; [|exact Ha].
    assert (Hc : read_in (SEValue m v, k, u)).
    { destruct o as [[[v' k'] u']|]; [|discriminate E]. cbn in E. destruct (InvisibleParse.ends_at _ _); [|discriminate E]. injection E as -> -> ->.
      destruct (Ho _ eq_refl) as [H1 H2]. split; [exact H1|exact H2]. }
    destruct best as [[q r]|]; [|exact Hc]. destruct (Nat.ltb q _); [exact Hc|exact Ha]. }
  specialize (G _ (through_attempts_in ts H) (n, None) Logic.I). destruct (fold_left _ _ _) as [n' [[q r]|]]; [exact G|]. cbn. split; [|exact Logic.I].
  apply (token_value_in U (through_until term ts)); [apply through_until_in, H|reflexivity].
Qed.

Definition entry_in (e : sentry) : Prop := match e with SOpen t => Forall U (spans1 t) | STok a => tok_in a end.
Notation entries_in := (Forall entry_in).
Lemma etoks_in l : entries_in l -> stream_in (etoks l).
Proof. induction 1 as [|e l H _ IH]; [constructor|]. apply stream_cons. split; [|exact IH]. destruct e; [exact H|apply H]. Qed.
Lemma sseen_in l : entries_in l -> entries_in (sseen l).
Proof. induction 1 as [|[t|a] l H Hl IH]; [constructor|exact IH|constructor; assumption]. Qed.
Lemma skipn_entries k l : entries_in l -> entries_in (skipn k l).
Proof. intros H. revert k. induction H; intros [|k]; cbn; auto. Qed.
Lemma firstn_entries k l : entries_in l -> entries_in (firstn k l).
Proof. intros H. revert k. induction H; intros [|k]; cbn; auto. Qed.
Lemma eplace_in scope l : U scope -> entries_in l -> U (place scope (etoks l)).
Proof. intros Hs H. apply place_in; [exact Hs|apply etoks_in, H]. Qed.
Lemma expected_in x scope l : U scope -> entries_in l -> message_in (through_expected x scope l).
Proof.
  intros Hs H. assert (Hp := eplace_in scope l Hs H). unfold through_expected. apply new_in. assert (S := sseen_in l H).
  destruct (sseen l) as [|[t|[[x0 s|c j s|lt s|d g s] a1 a2 a3]] r]; try exact Hp. inversion S as [|? ? Ht _]; subst. destruct (N.eqb c 39); [exact Hp|].
  apply (span_in U (SPunct c j s)), (proj1 Ht).
Qed.
Lemma eident_in scope l : U scope -> entries_in l -> message_in (through_expected_ident scope l).
Proof.
  intros Hs H. unfold through_expected_ident. destruct (sseen l) as [|[t|[[x0 s|c j s|lt s|d g s] a1 a2 a3]] r]; apply error_in; try exact Hs; apply etoks_in, H.
Qed.

Lemma through_call_in n l n' e k : entries_in l -> through_call P hf n l = Some (n', (e, k)) -> expr_in e.
Proof.
  intros H E. unfold through_call in E. assert (S := sseen_in l H). destruct (sseen l) as [|[t|[[x0 s|c j s|lt s|d g s] a1 a2 a3]] r]; try discriminate E.
  inversion S as [|? ? _ Hr]; subst. apply sseen_in in Hr. destruct (sseen r) as [|[t|[[y s'|c j s'|lt s'|[] g gs] b1 b2 b3]] r']; try discriminate E.
  inversion Hr as [|? ? Hg0 _]; subst. destruct (Hg0 : tok_in _) as (Hg & Ha & _). destruct (ident_allowed P x0 && hf x0); [|discriminate E].
  specialize (Ha n). cbn [s_args s_tok] in *. destruct (b1 n) as [n1 args]. injection E as _ <- _.
  unfold SpecSpanMacro.expr_in. cbn [expr_spans]. constructor; [apply eplace_in; assumption|]. apply Forall_app. split.
  - cbn [snd] in Ha. clear -Ha. induction Ha as [|a l H _ IH]; [constructor|]. cbn. apply Forall_app. split; assumption.
  - apply (group_in U) in Hg. apply Hg.
Qed.
Lemma through_expr_in n l ts : entries_in l -> stream_in ts -> read_in (snd (through_expr P SP hf n l ts)).
Proof.
  intros H Ht. unfold through_expr. destruct (through_call P hf n l) as [[n' [e k]]|] eqn:E; [|apply through_value_in, Ht]. cbn. split; [|exact Logic.I]. eapply through_call_in; eassumption.
Qed.

Section Terminated.
Context {A : Type} (Q : A -> Prop) (scope : span) (item : N -> list sentry -> list stt -> N * (A * nat + messages)) (Hs : U scope).
Context (Hitem : forall n l ts, entries_in l -> stream_in ts -> sum_in (fun x => Q (fst x)) (snd (item n l ts))).
Definition place_ok (p : splace) : Prop := match p with SSep m => message_in m | _ => True end.
Lemma through_terminated_in l : entries_in l -> forall ts at_ n, stream_in ts -> place_ok at_ -> sum_in (Forall Q) (snd (through_terminated scope item l ts at_ n)).
Proof.
  induction l as [|t l IH]; intros H ts at_ n Hts Hat.
  { destruct at_; try constructor. - exact Hat. - constructor. }
  inversion H as [|? ? Ht Hl]; subst. specialize (IH Hl). cbn [through_terminated].
  assert (Hts' := sadvance_in 1 ts Hts).
  assert (Sep : forall m n, message_in m -> sum_in (Forall Q) (snd (match t with
      | SOpen _ => through_terminated scope item l (sadvance 1 ts) (SSep m) n
      | STok t => if is_comma (erase (s_tok t)) then through_terminated scope item l (sadvance 1 ts) SItem n else (n, inr [m])
      end))).
  { clear n. intros m n Hm. destruct t as [t|t]; [apply IH; assumption|]. destruct (is_comma _); [apply IH; [exact Hts'|exact Logic.I]|]. constructor; [exact Hm|constructor]. }
  assert (E := expected_in "," scope (t :: l) Hs H).
  destruct at_ as [|[|k]|m]; [|apply Sep, E|apply IH; [exact Hts'|exact Logic.I]|apply Sep, Hat].
  specialize (Hitem n _ ts H Hts). destruct (item n (t :: l) ts) as [n1 [[x k]|e]]; [|exact Hitem]. cbn in Hitem.
  assert (G : forall r : N * (list A + messages), sum_in (Forall Q) (snd r) ->
    sum_in (Forall Q) (snd (let (n2, rest) := r in (n2, match rest with inl l' => inl (x :: l') | inr e => inr e end)))).
  { intros [n2 [r|e]] Hr; [|exact Hr]. constructor; assumption. }
  apply G. destruct k as [|k]; [apply Sep, E|apply IH; [exact Hts'|exact Logic.I]].
Qed.
End Terminated.

Lemma through_arg_in n l ts : entries_in l -> stream_in ts -> sum_in (fun x => expr_in (fst x)) (snd (through_arg P SP hf n l ts)).
Proof.
  intros H Ht. unfold through_arg. apply (through_until_in is_comma) in Ht. assert (R := through_expr_in n _ _ (firstn_entries (entries_of (through_until is_comma ts)) _ H) Ht).
  destruct (through_expr P SP hf n _ _) as [n' [[e k] u]]. cbn [snd] in *. destruct R as [He Hu].
  assert (Hf := first_some_in message_in _ _ Hu (left_over_in _ (sadvance_in k _ Ht))). destruct (first_some _ _) as [m|]; [constructor; [exact Hf|constructor]|exact He].
Qed.
Lemma through_args_in scope l ts n : U scope -> entries_in l -> stream_in ts -> Forall expr_in (snd (through_args P SP hf scope l ts n)).
Proof.
  intros Hs H Ht. unfold through_args. assert (G := through_terminated_in expr_in scope (through_arg P SP hf) Hs through_arg_in l H ts SItem n Ht Logic.I).
  destruct (through_terminated _ _ _ _ _ _) as [n' [r|e]]; [exact G|constructor].
Qed.
Lemma through_tuple_value_in n l ts : entries_in l -> stream_in ts -> sum_in (fun x => tv_read_in U (fst x)) (snd (through_tuple_value P SP hf n l ts)).
Proof.
  intros H Ht. assert (G : sum_in (fun x => tv_read_in U (fst x)) (snd (match through_expr P SP hf n l ts with (n', (e, k, u)) => (n', inl (TVValue e, u, k)) end))).
  { assert (R := through_expr_in n l ts H Ht). destruct (through_expr P SP hf n l ts) as [n' [[e k] u]]. destruct R as [He Hu]. split; [constructor; [exact He|constructor]|exact Hu]. }
  unfold through_tuple_value. assert (S := sseen_in l H). destruct (sseen l) as [|[t|[[? ?|? ? ?|? ?|[] g gs] b1 b2 b3]] r]; try exact G. inversion S as [|? ? Hg _]; subst.
  destruct (Hg : tok_in _) as (_ & _ & Hu & _). specialize (Hu n). cbn [s_tuple] in *. destruct (b2 n) as [n' [[t u]|e]]; [|exact Hu]. destruct Hu as [H1 H2]. split; [exact H1|exact H2].
Qed.
Lemma through_tuple_in scope l ts n : U scope -> entries_in l -> stream_in ts -> sum_in (tuple_read_in U) (snd (through_tuple P SP hf scope l ts n)).
Proof.
  intros Hs H Ht. unfold through_tuple. assert (G := through_terminated_in (tv_read_in U) scope (through_tuple_value P SP hf) Hs through_tuple_value_in l H ts SItem n Ht Logic.I).
  destruct (through_terminated _ _ _ _ _ _) as [n' [r|e]]; [|exact G]. cbn [snd SpanPlaces.sum_in] in *. destruct (unexpected_all U (fun v => Forall expr_in (ExpandProofs.leaves_v v)) _ G) as [H1 H2]. split; [|exact H2].
  exact (leaves_all U _ H1).
Qed.
Lemma through_pattern_value_in scope n l ts : U scope -> entries_in l -> sum_in (fun _ => True) (snd (through_pattern_value P scope n l ts)).
Proof.
  intros Hs H. assert (E : Forall message_in [through_expected_ident scope l]) by (constructor; [apply eident_in; assumption|constructor]).
  unfold through_pattern_value. assert (S := sseen_in l H). destruct (sseen l) as [|[t|[[x s|? ? ?|? ?|[] g gs] b1 b2 b3]] r]; try exact E.
  - destruct (ident_allowed P x); [exact Logic.I|exact E].
  - inversion S as [|? ? Hg _]; subst. destruct (Hg : tok_in _) as (_ & _ & _ & Ht). cbn in *. destruct b3; [exact Logic.I|exact Ht].
Qed.
Lemma through_pattern_in scope l ts : U scope -> entries_in l -> stream_in ts -> sum_in (fun _ => True) (through_pattern P scope l ts).
Proof.
  intros Hs H Ht. unfold through_pattern.
  assert (G := through_terminated_in (fun _ => True) scope (through_pattern_value P scope) Hs (fun n l ts H _ => through_pattern_value_in scope n l ts Hs H) l H ts SItem 0%N Ht Logic.I).
  destruct (snd _); [exact Logic.I|exact G].
Qed.
Lemma through_ann_in t : Forall U (spans1 t) -> entries_in (through_ann P SP hf t).
Proof.
  assert (D : forall t, Forall U (spans1 t) -> entries_in [STok {| s_tok := t; s_args := fun n => (n, []); s_tuple := fun n => (n, inr []); s_pattern := inr [] |}])
    by (intros t' Ht; constructor; [|constructor]; split; [exact Ht|]; repeat split; constructor).
  induction t as [x s|c j s|l s|d ts s IH] using stt_ind'; intros H; try apply D, H.
  destruct (group_in U d ts s H) as (_ & Hc & _ & Hts).
  assert (Hin : entries_in (flat_map (through_ann P SP hf) ts)).
  { clear -IH Hts. induction IH as [|t ts Ht _ IH]; [constructor|]. apply stream_cons in Hts as [H1 H2]. cbn. apply Forall_app. auto. }
  destruct d; try apply D, H.
  - cbn [through_ann]. constructor; [|constructor].
    split; [exact H|]. split; [intros n; apply through_args_in; assumption|]. split; [intros n; apply through_tuple_in; assumption|apply through_pattern_in; assumption].
  - cbn [through_ann]. constructor; [exact H|exact Hin].
Qed.
Lemma through_anns_in ts : stream_in ts -> entries_in (flat_map (through_ann P SP hf) ts).
Proof. induction ts as [|t ts IH]; intros H; [constructor|]. apply stream_cons in H as [H1 H2]. cbn. apply Forall_app. split; [apply through_ann_in, H1|apply IH, H2]. Qed.

Lemma through_spec_item_in n l ts : entries_in l -> stream_in ts -> sum_in (fun '(i, _, u) => sitem_in U i /\ opt_in message_in u) (snd (through_spec_item P SP hf n l ts)).
Proof.
  intros H Ht. assert (E : Forall message_in [through_expected_ident call_site l]) by (constructor; [apply eident_in; assumption|constructor]).
  unfold through_spec_item. assert (S := sseen_in l H). destruct (sseen l) as [|[t|[[x s|? ? ?|? ?|? ? ?] b1 b2 b3]] r]; try exact E. destruct (ident_allowed P x); [|exact E].
  inversion S as [|? ? _ Hr]; subst. assert (E2 : Forall message_in [through_expected "=" call_site r]) by (constructor; [apply expected_in; assumption|constructor]).
  assert (S2 := sseen_in r Hr). destruct (sseen r) as [|[t|eq] r']; try exact E2. inversion S2 as [|? ? _ Hr']; subst.
  destruct (is_equals _); [|exact E2]. cbv zeta.
  assert (R := through_expr_in n r' _ Hr' (sadvance_in (List.length l - List.length r') ts Ht)). destruct (through_expr P SP hf n r' _) as [n' [[e k] u]]. cbn [snd] in *.
  destruct (InvisibleParse.ends_at _ _); [exact R|]. cbn [SpanPlaces.sum_in]. unfold through_expected_separator.
  assert (Hk := skipn_entries k _ Hr'). apply (combine_in U); [apply eplace_in; assumption|].
  repeat constructor; apply expected_in; assumption.
Qed.
Definition spec_through_in (x : list sitem * option bool * list stt * option syn_message) : Prop :=
  let '(items, _, rest, u) := x in Forall (sitem_in U) items /\ stream_in rest /\ opt_in message_in u.
Lemma through_spec_in l : entries_in l -> forall ts at_ used n, stream_in ts -> place_ok at_ -> sum_in spec_through_in (snd (through_spec P SP hf l ts at_ used n)).
Proof.
  induction l as [|t l IH]; intros H ts at_ used n Hts Hat.
  { destruct at_ as [|[|k]|m]; cbn; try (repeat constructor; exact H0). constructor; [exact Hat|constructor]. }
  inversion H as [|? ? Ht Hl]; subst. specialize (IH Hl). cbn [through_spec]. assert (Hts' := sadvance_in 1 ts Hts).
  assert (E : message_in (error_at call_site (etoks (t :: l)) (txt "Expected "","" or "";"""))) by (apply error_in; [exact H0|apply etoks_in, H]).
  assert (Sep : forall u m, message_in m -> sum_in spec_through_in (snd (if is_separator (erase (s_tok u))
      then if match used with Some u0 => negb (Bool.eqb u0 (is_comma (erase (s_tok u)))) | None => false end
           then (n, inr [error_at call_site (etoks l) mixing_sep_error])
           else if through_peek_ident P l then through_spec P SP hf l (sadvance 1 ts) SItem (Some (is_comma (erase (s_tok u)))) n
           else (n, inl ([], Some (is_comma (erase (s_tok u))), sadvance 1 ts, None))
      else (n, inr [m])))).
  { intros u m Hm. destruct (is_separator _); [|constructor; [exact Hm|constructor]].
    destruct (match used with Some u => _ | None => _ end); [constructor; [apply error_in; [exact H0|apply etoks_in, Hl]|constructor]|].
    destruct (through_peek_ident P l); [apply IH; [exact Hts'|exact Logic.I]|]. repeat split; [constructor|exact Hts']. }
  destruct at_ as [|[|k]|m].
  - assert (R := through_spec_item_in n _ ts H Hts). destruct (through_spec_item P SP hf n (t :: l) ts) as [n1 [[[item [|k]] u]|e]]; [constructor| |exact R].
    specialize (IH (sadvance 1 ts) (SSkip k) used n1 Hts' Logic.I). destruct (through_spec P SP hf l _ (SSkip k) used n1) as [n2 [[[[items us] rest] u']|e]]; [|exact IH].
    cbn in *. destruct R as [R1 R2], IH as (I1 & I2 & I3). split; [constructor; assumption|]. split; [exact I2|apply first_some_in; assumption].
  - destruct t as [t|u]; [apply IH; [exact Hts'|exact E]|apply Sep, E].
  - apply IH; [exact Hts'|exact Logic.I].
  - destruct t as [t|u]; [apply IH; [exact Hts'|exact Hat]|apply Sep, Hat].
Qed.

Lemma through_source_value_in n l ts : entries_in l -> stream_in ts -> sum_in (fun x => source_in U (fst (fst x)) /\ opt_in message_in (snd (fst x))) (snd (through_source_value P SP hf n l ts)).
Proof.
  intros H Ht. assert (G : forall n, sum_in (fun x => source_in U (fst (fst x)) /\ opt_in message_in (snd (fst x)))
    (snd (match through_expr P SP hf n l ts with (n', (e, k, u)) => (n', inl (SLSValue e, u, k)) end))).
  { clear n. intros n. assert (R := through_expr_in n l ts H Ht). destruct (through_expr P SP hf n l ts) as [n' [[e k] u]]. exact R. }
  unfold through_source_value. assert (S := sseen_in l H). destruct (sseen l) as [|[t|[[? ?|? ? ?|? ?|[] g gs] b1 b2 b3]] r]; try apply G. inversion S as [|? ? Hg _]; subst.
  destruct (Hg : tok_in _) as (_ & _ & Hu & _). specialize (Hu n). cbn [s_tuple s_tok] in *. destruct (b2 n) as [n' [[t u]|e]]; [|apply G].
  destruct Hu as [H1 H2]. split; [|exact H2]. split; [apply eplace_in; assumption|exact H1].
Qed.
Lemma through_source_list_in n l : entries_in l ->
  sum_in (fun '(vs, u, rest) => Forall (source_in U) vs /\ opt_in message_in u /\ entries_in rest) (snd (through_source_list P SP hf n l)).
Proof.
  intros H. assert (E : Forall message_in [error_at call_site (etoks l) (txt "expected square brackets")]).
  { constructor; [|constructor]. apply error_in; [exact H0|apply etoks_in, H]. }
  unfold through_source_list. assert (S := sseen_in l H). destruct (sseen l) as [|[t|t] r]; try exact E. inversion S as [|? ? Ht0 Hr]; subst. destruct (Ht0 : tok_in _) as (Ht & _).
  destruct (s_tok t) as [? ?|? ? ?|? ?|[] g gs] eqn:Et; try exact E. clear E.
  apply (group_in U) in Ht as (_ & Hc & _ & Hg).
  assert (G := through_terminated_in (fun x => source_in U (fst x) /\ opt_in message_in (snd x)) (ds_close gs) (through_source_value P SP hf) Hc through_source_value_in _ (through_anns_in g Hg) g SItem n Hg Logic.I).
  destruct (through_terminated _ _ _ _ _ _) as [n' [vs|e]]; [|exact G]. apply (unexpected_all U) in G as [G1 G2]. cbn. auto.
Qed.
Lemma through_loop_in n l : entries_in l -> sum_in (opt_in (fun '(i, u, _) => loop_in U i /\ opt_in message_in u)) (snd (through_loop P SP hf n l)).
Proof.
  intros H. unfold through_loop. assert (S := sseen_in l H). destruct (sseen l) as [|[t|f] r0]; try exact Logic.I. inversion S as [|? ? _ Hr0]; subst.
  destruct (is_word _ _); [|exact Logic.I].
  assert (A : sum_in (fun x => entries_in (snd x)) (through_loop_alias P r0)).
  { assert (E : Forall message_in [through_expected_ident call_site r0]) by (constructor; [apply eident_in; assumption|constructor]).
    unfold through_loop_alias. assert (S1 := sseen_in r0 Hr0). destruct (sseen r0) as [|[t|t] r]; try exact E. inversion S1 as [|? ? Ht0 Hr]; subst.
    destruct (s_tok t) as [x s|? ? ?|? ?|[] g gs]; try exact E.
    - destruct (ident_allowed P x); [exact Hr|exact E].
    - destruct (Ht0 : tok_in _) as (_ & _ & _ & Hp). destruct (s_pattern t) as [p|e]; [exact Hr|].
      cbn [SpanPlaces.sum_in]. apply (combine_in U); [apply eplace_in; assumption|]. constructor; [exact Hp|constructor; [exact E|constructor]]. }
  destruct (through_loop_alias P r0) as [[al r1]|e]; [|exact A]. cbn in A.
  assert (E : Forall message_in [expected_word "in" call_site (etoks r1)]) by (constructor; [apply error_in; [exact H0|apply etoks_in, A]|constructor]).
  assert (S1 := sseen_in r1 A). cbv zeta. destruct (sseen r1) as [|[t|kw] r2]; try exact E. inversion S1 as [|? ? _ Hr2]; subst.
  destruct (is_word _ _); [|exact E]. assert (R := through_source_list_in n r2 Hr2).
  destruct (through_source_list P SP hf n r2) as [n1 [[[vs u] r]|e]]; [|exact R]. cbn in *. destruct R as (R1 & R2 & _). auto.
Qed.
Definition loops_through_in (x : list sloop_item * list sentry * list stt * option syn_message) : Prop :=
  let '(items, l, ts, u) := x in Forall (loop_in U) items /\ entries_in l /\ stream_in ts /\ opt_in message_in u.
Lemma through_loops_in l : entries_in l -> forall ts skip n, stream_in ts -> sum_in loops_through_in (snd (through_loops P SP hf l ts skip n)).
Proof.
  induction l as [|t l IH]; intros H ts skip n Hts; [destruct skip; repeat split; constructor|]. inversion H as [|? ? Ht Hl]; subst. specialize (IH Hl). cbn [through_loops].
  assert (Hts' := sadvance_in 1 ts Hts). destruct skip as [|k]; [|apply IH, Hts'].
  assert (R := through_loop_in n _ H). destruct (through_loop P SP hf n (t :: l)) as [n1 [[[[item u] k]|]|e]]; [| |exact R].
  - specialize (IH (sadvance 1 ts) (pred k) n1 Hts'). destruct (through_loops P SP hf l _ _ n1) as [n2 [[[[items l'] ts'] u']|e]]; [|exact IH].
    cbn in *. destruct R as [R1 R2], IH as (I1 & I2 & I3 & I4). split; [constructor; assumption|]. split; [exact I2|]. split; [exact I3|apply first_some_in; assumption].
  - repeat split; [constructor|exact H|exact Hts].
Qed.
Definition header_through_in (x : option (list sloop_item) * option salias_spec * list stt * option syn_message) : Prop :=
  let '(loops, spec, rest, u) := x in opt_in (Forall (loop_in U)) loops /\ opt_in (spec_all_in U) spec /\ stream_in rest /\ opt_in message_in u.
Lemma through_header_in n ts : stream_in ts -> sum_in header_through_in (through_header P SP hf n ts).
Proof.
  intros H. unfold through_header. assert (G := through_loops_in _ (through_anns_in ts H) ts 0 n H). destruct (through_loops P SP hf _ _ 0 n) as [n1 [[[[loops l1] ts1] u1]|e]]; [|exact G].
  destruct G as (G1 & G2 & G3 & G4). assert (Hl : opt_in (Forall (loop_in U)) (match loops with [] => None | _ => Some loops end)) by (destruct loops; [exact Logic.I|exact G1]).
  destruct (through_peek_ident P l1); [|repeat split; try assumption]. assert (S := through_spec_in l1 G2 ts1 SItem None n1 G3 Logic.I).
  destruct (snd (through_spec P SP hf l1 ts1 SItem None n1)) as [[[[items used] l2] u2]|e]; [|exact S]. destruct S as (S1 & S2 & S3).
  cbn. repeat split; try assumption. apply first_some_in; assumption.
Qed.
Lemma through_finish_in sc u rest ast : opt_in message_in u -> stream_in rest -> ast_in U ast -> sum_in (ast_in U) (sp_ast (through_finish sc u rest ast)).
Proof.
  intros Hu Hr Ha. unfold through_finish. assert (F := first_some_in message_in _ _ Hu (left_over_in rest Hr)). destruct (first_some _ _); [constructor; [exact F|constructor]|exact Ha].
Qed.
Lemma through_func_in n ts : stream_in ts -> sum_in (ast_in U) (sp_ast (through_func_macro P SP hf n ts)).
Proof.
  intros H. unfold through_func_macro. assert (G := through_header_in n ts H). destruct (through_header P SP hf n _) as [[[[loops spec] l] u1]|e]; [|exact G].
  destruct G as (G1 & G2 & G3 & G4). destruct (spre_block SP l) as [[[block k] u2]|] eqn:E; [|apply (inherited_block_error _ _ IP _ _ H0 HJ G3)].
  destruct (inherited_pre_block _ _ IP _ _ E U H0 HJ G3) as [Hb Hu]. assert (Hk := sadvance_in k _ G3).
  assert (Ha : ast_in U {| sa_loops := loops; sa_spec := spec; sa_block := block |}) by (repeat split; assumption).
  assert (Hf : opt_in message_in (first_some u1 u2)) by (apply first_some_in; assumption). cbv zeta.
  destruct (snext (sadvance k l)) as [i [t|]]; [|apply through_finish_in; [assumption|constructor|assumption]].
  assert (Hi := sadvance_in (S i) _ Hk). destruct (is_separator _); [|apply through_finish_in; assumption].
  destruct (strailing_mixed t spec); [constructor; [apply error_in; assumption|constructor]|apply through_finish_in; assumption].
Qed.
Lemma through_attr_in n attr item : stream_in attr -> stream_in item -> sum_in (ast_in U) (sp_ast (through_attr_macro P SP hf n attr item)).
Proof.
  intros H Hi. unfold through_attr_macro. assert (G := through_header_in n attr H). destruct (through_header P SP hf n _) as [[[[loops spec] l] u1]|e]; [|exact G].
  destruct G as (G1 & G2 & G3 & G4).
  assert (S : sum_in stream_in (through_skip_separator loops spec l)).
  { unfold through_skip_separator. destruct (snext l) as [i [t|]]; [|exact G3]. destruct (is_separator _); [|exact G3].
    destruct spec, loops; try exact (sadvance_in (S i) _ G3); try exact G3. constructor; [apply error_in; assumption|constructor]. }
  destruct (through_skip_separator loops spec l) as [rest|e]; [|exact S]. cbn [SpanPlaces.sum_in] in S.
  assert (F := first_some_in message_in _ _ G4 (left_over_in rest S)). destruct (first_some u1 _) as [m|]; [constructor; [exact F|constructor]|].
  assert (B : stream_in [sgroup Brace call_site item]) by (apply stream_sgroup; split; assumption).
  destruct (spre_block SP _) as [[[block k] u2]|] eqn:E; [|apply (inherited_block_error _ _ IP _ _ H0 HJ B)].
  destruct (inherited_pre_block _ _ IP _ _ E U H0 HJ B) as [Hb Hu]. apply through_finish_in; [exact Hu| |repeat split; assumption]. destruct (Nat.eqb k 1); [constructor|exact B].
Qed.
End Places.

Section Each.
Context (O : oracles) (SO : soracles) (P : parsers) (SP : sparsers) (SY : ssyntax).
Context (L : spanless O SO) (LP : spanless_parsers P SP).
Context (I : inherited SO) (IP : inherited_parsers SO SP) (IY : inherited_syntax SY).
Lemma through_core_in (U : span -> Prop) (H0 : U call_site) (HJ : joins_in SO U) t u : Forall U (input_spans (su_source u)) ->
  output_in U (snd (scompose_core O SO SY t (sinvocation_through O P SP u))).
Proof.
  intros Hu. unfold scompose_core. assert (Hids := through_ids O P SP LP u).
  assert (Hp : SpanPlaces.sum_in U (ast_in U) (sp_ast (sinv_parsed (sinvocation_through O P SP u)))).
  { destruct u as [[ts|ts|attr item] seed first n]; cbn [su_source input_spans] in Hu;
      [apply (through_func_in SO)|apply (through_func_in SO)|apply Forall_app in Hu as [H1 H2]; apply (through_attr_in SO)]; assumption. }
  destruct (scoped _) as [t2|e|p]; [|exact H0|exact Logic.I]. set (p := sinv_parsed (sinvocation_through O P SP u)) in *.
  destruct (run_parser _ t2) as [t3|e|q]; [|apply close_in; exact H0|apply close_in; exact Logic.I].
  destruct (sp_ast p) as [ast|e]; [|apply close_in; exact Hp].
  apply close_in. assert (G := execute_in O SO SY L I IY U H0 HJ (su_seed u) (su_first_id u) t3 ast (Hids _ eq_refl) Hp).
  cbn [sinvocation_through sinv_seed sinv_first_id]. destruct (sexecute _ _ _ _ t3 ast); exact G.
Qed.
Lemma through_run_each uses : forall t, Forall2 (own_spans SO) uses (snd (SpanMacro.srun O SO SY t (map (sinvocation_through O P SP) uses))).
Proof.
  induction uses as [|u uses IH]; intros t; [constructor|]. cbn [map SpanMacro.srun].
  destruct (scompose_core O SO SY t (sinvocation_through O P SP u)) as [t1 o] eqn:E. specialize (IH t1).
  destruct (SpanMacro.srun O SO SY t1 _) as [t2 os]. constructor; [|exact IH].
  intros U H0 HJ Hu ts Ho. eapply emitted_in; [|exact Ho].
  assert (G := through_core_in U H0 HJ t u Hu). rewrite E in G. exact G.
Qed.
Lemma through_places uses : Forall2 (own_spans SO) uses (sexpand_uses_through O SO P SP SY uses).
Proof. apply through_run_each. Qed.
Lemma through_places_stable (HJ : forall a b s, join SO a b = Some s -> s = a \/ s = b) uses :
  Forall2 (fun u o => forall ts, emitted o = Some ts -> incl (spans ts) (call_site :: input_spans (su_source u)))
    uses (sexpand_uses_through O SO P SP SY uses).
Proof.
  induction (through_places uses) as [|u o us os H _ IH]; constructor; [|exact IH]. intros ts E s Hs.
  assert (G : Forall (fun s => In s (call_site :: input_spans (su_source u))) (spans ts)).
  { apply H; [left; reflexivity| | |exact E].
    - intros a b c Hj Ha Hb. destruct (HJ a b c Hj) as [->| ->]; assumption.
    - apply Forall_forall. intros x Hx. right. exact Hx. }
  exact (proj1 (Forall_forall _ _) G s Hs).
Qed.
End Each.
