(** Where the spans of the output come from. *)
From Coq Require Import String Permutation.
From Verif Require Import Base BaseFacts Token Types Values Ast Env Eval Item Tuple CrossProduct Expand Deprecation Interpreter Parse Macro SpecElab SpecParse SpecRepro
  ExpandProofs MacroProofs Failures
  SpanTokens SpanWalker SpanValues SpanEval SpanItem SpanVisitor SpanDeprecation SpanParse SpanExpand SpanMacro
  SpecSpans SpecSpanEval SpecSpanItem SpecSpanMacro SpanEvalProofs SpanItemProofs SpanDeprecationProofs SpanParseProofs SpanExpandProofs SpanMacroProofs.
Open Scope list_scope.

Section Places.
Context (O : oracles) (SO : soracles) (P : parsers) (SP : sparsers) (Y : syntax) (SY : ssyntax) (hf : str -> bool).
Context (L : spanless O SO) (LP : spanless_parsers P SP) (LY : spanless_syntax Y SY).
Context (I : inherited SO) (IP : inherited_parsers SO SP) (IY : inherited_syntax SY).
Context (U : span -> Prop) (H0 : U call_site) (HJ : joins_in SO U).
Notation message_in := (message_in U).
Notation stream_in := (stream_in U).
Notation expr_in := (expr_in U).

Definition sum_in {A} (Q : A -> Prop) (x : A + messages) : Prop := match x with inl a => Q a | inr e => Forall message_in e end.

(** ** Messages *)
Lemma open_in t : Forall U (spans1 t) -> U (open_span t).
Proof. destruct t; intros H; inversion H; assumption. Qed.
Lemma group_in d ts s : Forall U (spans1 (SGroup d ts s)) -> U (ds_open s) /\ U (ds_close s) /\ U (ds_entire s) /\ stream_in ts.
Proof. cbn [spans1]. rewrite !Forall_cons_iff. intros (A & B & C & D). auto. Qed.
Lemma span_in t : Forall U (spans1 t) -> U (span_of t).
Proof. destruct t as [| | |d ts s]; intros H; [inversion H; assumption..|]. apply group_in in H. apply H. Qed.
Lemma place_in scope rest : U scope -> stream_in rest -> U (place scope rest).
Proof. intros Hs H. destruct rest as [|t r]; [exact Hs|]. apply stream_cons in H as [H _]. apply open_in, H. Qed.
Lemma new_in s t : U s -> message_in (new_message s t).
Proof. intros H. split; exact H. Qed.
Lemma error_in scope rest t : U scope -> stream_in rest -> message_in (error_at scope rest t).
Proof. intros Hs H. apply new_in, place_in; assumption. Qed.
Lemma punct_in x scope rest : U scope -> stream_in rest -> message_in (expected_punct x scope rest).
Proof. intros Hs H. apply new_in, place_in; assumption. Qed.
Lemma ident_in scope rest : U scope -> stream_in rest -> message_in (expected_ident scope rest).
Proof. intros Hs H. destruct rest as [|[] r]; apply error_in; assumption. Qed.
Lemma unexpected_in t : Forall U (spans1 t) -> message_in (unexpected_token t).
Proof. intros H. apply new_in, span_in, H. Qed.
Lemma combine_in t s errors : U s -> Forall (Forall message_in) errors -> Forall message_in (combine_errors t s errors).
Proof.
  intros Hs H. assert (Forall message_in (new_message s (txt t) :: List.concat errors)) as G.
  { constructor; [apply new_in, Hs|]. induction H; [constructor|]. cbn. apply Forall_app. auto. }
  destruct H as [|e l He [|e' l' ? ?]]; [exact G|exact He|exact G].
Qed.
Lemma first_some_in {A} (Q : A -> Prop) a b : opt_in Q a -> opt_in Q b -> opt_in Q (first_some a b).
Proof. destruct a; auto. Qed.
Lemma skipn_in k ts : stream_in ts -> stream_in (skipn k ts).
Proof. revert k. induction ts as [|t ts IH]; intros [|k] H; try exact H. cbn. apply IH. apply stream_cons in H as [_ H]. exact H. Qed.

(** ** Values *)
Definition read_in (x : sexpr * nat * option syn_message) : Prop := let '(e, _, u) := x in expr_in e /\ opt_in message_in u.
Lemma token_value_in ts id v : stream_in ts -> sto_tokens v = ts -> expr_in (SEValue id v).
Proof. intros H E. unfold SpecSpanMacro.expr_in. cbn. unfold value_spans. rewrite E. exact H. Qed.
Lemma node_read_in ts f o c : (forall x, o = Some x -> SpecSpanMacro.node_in SO ts SpecSpanItem.stream_in x) -> (forall n, sto_tokens (f n) = n) -> stream_in ts -> snode_candidate f o = Some c ->
  stream_in (sto_tokens (fst (fst c))) /\ opt_in message_in (snd c).
Proof.
  intros Ho Hf Hts. destruct o as [[[n k] u]|]; [|discriminate]. intros H. injection H as <-. cbn [fst snd]. rewrite Hf. apply (Ho _ eq_refl U H0 HJ Hts).
Qed.
Lemma attempts_in ts : stream_in ts -> Forall (fun o => forall c, o = Some c -> stream_in (sto_tokens (fst (fst c))) /\ opt_in message_in (snd c)) (sattempts P SP ts).
Proof.
  intros H. unfold sattempts. rewrite !Forall_cons_iff. refine (conj _ (conj _ (conj _ (conj _ (conj _ (conj _ (conj _ (Forall_nil _)))))))); intros c.
  - unfold slit_int_candidate. destruct (spre_lit_int SP ts) as [[[[d r] s] k]|] eqn:E; [|discriminate]. intros Hc. injection Hc as <-. cbn. split; [|exact Logic.I].
    repeat constructor. exact (inherited_pre_lit_int _ _ IP _ _ _ _ _ E U HJ H).
  - unfold slit_str_candidate. destruct (spre_lit_str SP ts) as [[[[d r] s] k]|] eqn:E; [|discriminate]. intros Hc. injection Hc as <-. cbn. split; [|exact Logic.I].
    apply (inherited_pre_lit_str _ _ IP) in E. repeat constructor. unfold SpecSpanItem.stream_in in H. rewrite Forall_forall in H. auto.
  - destruct ts as [|t ts]; [discriminate|]. cbn. destruct (_ || _); [|discriminate]. intros Hc. injection Hc as <-. cbn. split; [|exact Logic.I].
    apply stream_cons in H as [H _]. repeat constructor. apply span_in, H.
  - destruct ts as [|[x s|? ? ?|? ?|? ? ?] ts]; try discriminate. cbn. destruct (ident_allowed P x); [|discriminate]. intros Hc. injection Hc as <-. cbn. split; [|exact Logic.I].
    apply stream_cons in H as [H _]. exact H.
  - exact (node_read_in ts SVPath _ c (inherited_pre_path _ _ IP ts) (fun n => eq_refl) H).
  - exact (node_read_in ts SVType _ c (inherited_pre_type _ _ IP ts) (fun n => eq_refl) H).
  - exact (node_read_in ts SVExpr _ c (inherited_pre_expr _ _ IP ts) (fun n => eq_refl) H).
Qed.
Lemma until_in term ts : stream_in ts -> stream_in (suntil term ts).
Proof. induction ts as [|t ts IH]; intros H; [exact H|]. cbn. destruct (term _); [constructor|]. apply stream_cons in H as [Ht H]. apply stream_cons. auto. Qed.
Lemma value_in term n ts : stream_in ts -> read_in (snd (sparse_value P SP term n ts)).
Proof.
  intros H. unfold sparse_value.
  assert (G : forall l, Forall (fun o => forall c, o = Some c -> stream_in (sto_tokens (fst (fst c))) /\ opt_in message_in (snd c)) l ->
    forall acc, opt_in (fun b => read_in (snd b)) (snd acc) -> opt_in (fun b => read_in (snd b)) (snd (fold_left (sattempt term ts) l acc))).
  { induction 1 as [|o l Ho _ IH]; intros acc Ha; [exact Ha|]. cbn [fold_left]. apply IH. destruct acc as [m best]. unfold sattempt.
    destruct (stry_parse term ts o) as [[[v k] u]|] eqn:E; [|exact Ha].
    assert (Hc : read_in (SEValue m v, k, u)).
    { destruct o as [[[v' k'] u']|]; [|discriminate E]. cbn in E. destruct (ends _ _); [|discriminate E]. injection E as -> -> ->.
      destruct (Ho _ eq_refl) as [H1 H2]. split; [exact H1|exact H2]. }
    destruct best as [[q r]|]; [|exact Hc]. destruct (Nat.ltb q _); [exact Hc|exact Ha]. }
  specialize (G _ (attempts_in ts H) (n, None) Logic.I). destruct (fold_left _ _ _) as [n' [[q r]|]]; [exact G|]. cbn. split; [|exact Logic.I].
  apply (token_value_in (suntil term ts)); [apply until_in, H|reflexivity].
Qed.

(** ** Recursion *)
Definition tuple_in (t : tuple sexpr) : Prop := Forall expr_in (ExpandProofs.leaves t).
Definition tuple_read_in (x : tuple sexpr * option syn_message) : Prop := tuple_in (fst x) /\ opt_in message_in (snd x).
Definition tok_in (t : satok) : Prop :=
  Forall U (spans1 (s_tok t)) /\
  (forall n, Forall expr_in (snd (s_args t n))) /\
  (forall n, sum_in tuple_read_in (snd (s_tuple t n))) /\
  sum_in (fun _ => True) (s_pattern t).
Lemma toks_in l : Forall tok_in l -> stream_in (stoks l).
Proof. induction 1 as [|t l H _ IH]; [constructor|]. apply stream_cons. split; [apply H|exact IH]. Qed.
Lemma skipn_toks k l : Forall tok_in l -> Forall tok_in (skipn k l).
Proof. revert k. intros k H. revert k. induction H; intros [|k]; cbn; auto. Qed.

Lemma call_in n l n' e k : Forall tok_in l -> sparse_call P hf n l = Some (n', (e, k)) -> expr_in e.
Proof.
  intros H E. unfold sparse_call in E. destruct l as [|[[x s|? ? ?|? ?|? ? ?] a1 a2 a3] [|[[? ?|? ? ?|? ?|[] g gs] b1 b2 b3] l]]; try discriminate E.
  destruct (ident_allowed P x && hf x); [|discriminate E]. inversion H as [|? ? Hx Hl]; subst. inversion Hl as [|? ? Hg _]; subst.
  destruct Hx as (Hx & _), Hg as (Hg & Ha & _). specialize (Ha n). cbn [s_args s_tok] in *. destruct (b1 n) as [n1 args]. injection E as _ <- _.
  unfold SpecSpanMacro.expr_in. cbn [expr_spans]. constructor; [inversion Hx; assumption|]. apply Forall_app. split.
  - cbn [snd] in Ha. clear -Ha. induction Ha as [|a l H _ IH]; [constructor|]. cbn. apply Forall_app. split; assumption.
  - inversion Hg as [|? ? _ G1]; subst. inversion G1 as [|? ? _ G2]; subst. inversion G2; assumption.
Qed.
Lemma expr_read_in n l : Forall tok_in l -> read_in (snd (sparse_expr_ P SP hf n l)).
Proof.
  intros H. unfold sparse_expr_. destruct (sparse_call P hf n l) as [[n' [e k]]|] eqn:E; [|apply value_in, toks_in, H]. cbn. split; [|exact Logic.I]. eapply call_in; eassumption.
Qed.

Section Terminated.
Context {A : Type} (Q : A -> Prop) (scope : span) (item : N -> list satok -> N * (A * nat + messages)) (Hs : U scope).
Context (Hitem : forall n l, Forall tok_in l -> sum_in (fun x => Q (fst x)) (snd (item n l))).
Lemma terminated_in l : Forall tok_in l -> forall skip n, sum_in (Forall Q) (snd (sparse_terminated scope item l skip n)).
Proof.
  induction l as [|t l IH]; intros H skip n; [constructor|]. inversion H as [|? ? Ht Hl]; subst. specialize (IH Hl). cbn [sparse_terminated].
  assert (E : Forall message_in [expected_punct "," scope (stoks (t :: l))]) by (constructor; [apply punct_in; [exact Hs|apply toks_in, H]|constructor]).
  destruct skip as [[|k]|]; [destruct (is_comma _); [apply IH|exact E]|apply IH|].
  specialize (Hitem n _ H). destruct (item n (t :: l)) as [n1 [[x k]|e]]; [|exact Hitem]. cbn in Hitem.
  assert (G : forall r : N * (list A + messages), sum_in (Forall Q) (snd r) ->
    sum_in (Forall Q) (snd (let (n2, rest) := r in (n2, match rest with inl l' => inl (x :: l') | inr e => inr e end)))).
  { intros [n2 [r|e]] Hr; [|exact Hr]. constructor; assumption. }
  apply G. destruct k as [|k]; [destruct (is_comma _); [apply IH|exact E]|apply IH].
Qed.
End Terminated.

Lemma auntil_in term l : Forall tok_in l -> Forall tok_in (sauntil term l).
Proof. induction 1 as [|t l Ht _ IH]; [constructor|]. cbn. destruct (term _); constructor; assumption. Qed.
Lemma arg_in n l : Forall tok_in l -> sum_in (fun x => expr_in (fst x)) (snd (sparse_arg P SP hf n l)).
Proof.
  intros H. unfold sparse_arg. apply (auntil_in is_comma) in H. assert (R := expr_read_in n _ H). destruct (sparse_expr_ P SP hf n _) as [n' [[e k] u]]. cbn [snd] in *.
  destruct R as [He Hu]. destruct u as [m|]; [constructor; [exact Hu|constructor]|]. assert (Hk := skipn_in k _ (toks_in _ H)).
  destruct (skipn k _) as [|t r]; [exact He|]. constructor; [|constructor]. apply unexpected_in. apply stream_cons in Hk as [Hk _]. exact Hk.
Qed.
Lemma args_in scope l n : U scope -> Forall tok_in l -> Forall expr_in (snd (sparse_args P SP hf scope l n)).
Proof.
  intros Hs H. unfold sparse_args. assert (G := terminated_in expr_in scope (sparse_arg P SP hf) Hs arg_in l H None n).
  destruct (sparse_terminated _ _ _ _ _) as [n' [r|e]]; [exact G|constructor].
Qed.
Definition tv_read_in (x : tuple_value sexpr * option syn_message) : Prop := Forall expr_in (ExpandProofs.leaves_v (fst x)) /\ opt_in message_in (snd x).
Lemma tuple_value_in n l : Forall tok_in l -> sum_in (fun x => tv_read_in (fst x)) (snd (sparse_tuple_value P SP hf n l)).
Proof.
  intros H. assert (G : sum_in (fun x => tv_read_in (fst x)) (snd (match sparse_expr_ P SP hf n l with (n', (e, k, u)) => (n', inl (TVValue e, u, k)) end))).
  { assert (R := expr_read_in n l H). destruct (sparse_expr_ P SP hf n l) as [n' [[e k] u]]. destruct R as [He Hu]. split; [constructor; [exact He|constructor]|exact Hu]. }
  destruct l as [|[[? ?|? ? ?|? ?|[] g gs] b1 b2 b3] l]; try exact G. inversion H as [|? ? Ht _]; subst. destruct Ht as (_ & _ & Ht & _). specialize (Ht n).
  cbn [sparse_tuple_value s_tuple] in *. destruct (b2 n) as [n' [[t u]|e]]; [|exact Ht]. destruct Ht as [H1 H2]. split; [exact H1|exact H2].
Qed.
Lemma unexpected_all {A} (Q : A -> Prop) (l : list (A * option syn_message)) : Forall (fun x => Q (fst x) /\ opt_in message_in (snd x)) l ->
  Forall Q (fst (first_unexpected l)) /\ opt_in message_in (snd (first_unexpected l)).
Proof.
  unfold first_unexpected. cbn [fst snd]. induction 1 as [|x l [H1 H2] _ [IH1 IH2]]; [split; [constructor|exact Logic.I]|].
  cbn. split; [constructor; assumption|apply first_some_in; assumption].
Qed.
Lemma leaves_all (l : list (tuple_value sexpr)) : Forall (fun v => Forall expr_in (leaves_v v)) l -> Forall expr_in (ExpandProofs.leaves l).
Proof. induction 1 as [|x l H _ IH]; [constructor|]. cbn. apply Forall_app. split; assumption. Qed.
Lemma tuple_parse_in scope l n : U scope -> Forall tok_in l -> sum_in tuple_read_in (snd (sparse_tuple P SP hf scope l n)).
Proof.
  intros Hs H. unfold sparse_tuple. assert (G := terminated_in tv_read_in scope (sparse_tuple_value P SP hf) Hs tuple_value_in l H None n).
  destruct (sparse_terminated _ _ _ _ _) as [n' [r|e]]; [|exact G]. cbn [snd sum_in] in *. destruct (unexpected_all (fun v => Forall expr_in (leaves_v v)) _ G) as [H1 H2]. split; [|exact H2].
  exact (leaves_all _ H1).
Qed.
Lemma pattern_value_in scope n l : U scope -> Forall tok_in l -> sum_in (fun _ => True) (snd (sparse_pattern_value P scope n l)).
Proof.
  intros Hs H. assert (E : Forall message_in [expected_ident scope (stoks l)]) by (constructor; [apply ident_in; [exact Hs|apply toks_in, H]|constructor]).
  destruct l as [|[[x s|? ? ?|? ?|[] g gs] b1 b2 b3] l]; try exact E.
  - cbn [sparse_pattern_value]. destruct (ident_allowed P x); [exact Logic.I|exact E].
  - inversion H as [|? ? Ht _]; subst. destruct Ht as (_ & _ & _ & Ht). cbn in *. destruct b3; [exact Logic.I|exact Ht].
Qed.
Lemma pattern_in scope l : U scope -> Forall tok_in l -> sum_in (fun _ => True) (sparse_pattern P scope l).
Proof.
  intros Hs H. unfold sparse_pattern. assert (G := terminated_in (fun _ => True) scope (sparse_pattern_value P scope) Hs (fun n l => pattern_value_in scope n l Hs) l H None 0%N).
  destruct (snd _); [exact Logic.I|exact G].
Qed.
Lemma ann_in t : Forall U (spans1 t) -> tok_in (sann P SP hf t).
Proof.
  assert (D : forall t, Forall U (spans1 t) -> tok_in {| s_tok := t; s_args := fun n => (n, []); s_tuple := fun n => (n, inr []); s_pattern := inr [] |})
    by (intros t' Ht; split; [exact Ht|]; repeat split; constructor).
  induction t as [x s|c j s|l s|d ts s IH] using stt_ind'; intros H; try apply D, H. destruct d; try apply D, H.
  assert (Hc : U (ds_close s) /\ stream_in ts).
  { cbn in H. inversion H as [|? ? _ G1]; subst. inversion G1 as [|? ? Hc G2]; subst. inversion G2; auto. }
  destruct Hc as [Hc Hts]. assert (Hin : Forall tok_in (map (sann P SP hf) ts)).
  { clear -IH Hts. induction IH as [|t ts Ht _ IH]; [constructor|]. apply stream_cons in Hts as [H1 H2]. constructor; auto. }
  split; [exact H|]. split; [intros n; apply args_in; assumption|]. split; [intros n; apply tuple_parse_in; assumption|apply pattern_in; assumption].
Qed.
Lemma anns_in ts : stream_in ts -> Forall tok_in (map (sann P SP hf) ts).
Proof. induction ts as [|t ts IH]; intros H; [constructor|]. apply stream_cons in H as [H1 H2]. constructor; [apply ann_in, H1|apply IH, H2]. Qed.

(** ** Definitions and loops *)
Definition sitem_in (i : sitem) : Prop := expr_in (snd i).
Lemma spec_item_in n l : Forall tok_in l -> sum_in (fun '(i, _, u) => sitem_in i /\ opt_in message_in u) (snd (sparse_spec_item P SP hf n l)).
Proof.
  intros H. assert (E : Forall message_in [expected_ident call_site (stoks l)]) by (constructor; [apply ident_in; [exact H0|apply toks_in, H]|constructor]).
  destruct l as [|[[x s|? ? ?|? ?|? ? ?] b1 b2 b3] l]; try exact E. cbn [sparse_spec_item]. destruct (ident_allowed P x); [|exact E].
  inversion H as [|? ? Ht Hl]; subst. destruct l as [|eq r]; [repeat constructor; exact H0|]. inversion Hl as [|? ? Hq Hr]; subst.
  destruct (is_equals _); [|constructor; [apply punct_in; [exact H0|apply toks_in, Hl]|constructor]].
  assert (R := expr_read_in n r Hr). destruct (sparse_expr_ P SP hf n r) as [n' [[e k] u]]. cbn [snd] in *.
  destruct (ends _ _); [exact R|]. cbn [sum_in]. unfold expected_separator.
  assert (Hk := toks_in _ (skipn_toks k _ Hr)). apply combine_in; [apply place_in; assumption|].
  repeat constructor; apply punct_in; assumption.
Qed.
Definition spec_read_in (x : list sitem * option bool * list satok * option syn_message) : Prop :=
  let '(items, _, rest, u) := x in Forall sitem_in items /\ Forall tok_in rest /\ opt_in message_in u.
Lemma spec_in l : Forall tok_in l -> forall skip used n, sum_in spec_read_in (snd (sparse_spec P SP hf l skip used n)).
Proof.
  induction l as [|t l IH]; intros H skip used n.
  { destruct skip as [[|k]|]; cbn; repeat constructor; exact H0. }
  inversion H as [|? ? Ht Hl]; subst. specialize (IH Hl). cbn [sparse_spec]. destruct skip as [[|k]|]; [|apply IH|].
  - destruct (is_separator _); [|constructor; [apply error_in; [exact H0|apply toks_in, H]|constructor]]. cbv zeta.
    destruct (match used with Some u => _ | None => _ end); [constructor; [apply error_in; [exact H0|apply toks_in, Hl]|constructor]|].
    destruct (speek_ident P l); [apply IH|]. repeat split; [constructor|exact Hl].
  - assert (R := spec_item_in n _ H). destruct (sparse_spec_item P SP hf n (t :: l)) as [n1 [[[item k] u]|e]]; [|exact R].
    specialize (IH (Some k) used n1). destruct (sparse_spec P SP hf l (Some k) used n1) as [n2 [[[[items us] rest] u']|e]]; [|exact IH].
    cbn in *. destruct R as [R1 R2], IH as (I1 & I2 & I3). split; [constructor; assumption|]. split; [exact I2|apply first_some_in; assumption].
Qed.

Definition source_in (v : ssource_value) : Prop :=
  match v with SLSValue e => expr_in e | SLSTuple s t => U s /\ tuple_in t end.
Lemma source_value_in n l : Forall tok_in l -> sum_in (fun x => source_in (fst (fst x)) /\ opt_in message_in (snd (fst x))) (snd (sparse_source_value P SP hf n l)).
Proof.
  intros H. assert (G : forall n, sum_in (fun x => source_in (fst (fst x)) /\ opt_in message_in (snd (fst x)))
    (snd (match sparse_expr_ P SP hf n l with (n', (e, k, u)) => (n', inl (SLSValue e, u, k)) end))).
  { clear n. intros n. assert (R := expr_read_in n l H). destruct (sparse_expr_ P SP hf n l) as [n' [[e k] u]]. exact R. }
  unfold sparse_source_value. destruct l as [|[[? ?|? ? ?|? ?|[] g gs] b1 b2 b3] l]; try apply G. inversion H as [|? ? Ht _]; subst.
  destruct Ht as (Ho & _ & Ht & _). specialize (Ht n). cbn [s_tuple s_tok] in *. destruct (b2 n) as [n' [[t u]|e]]; [|apply G].
  destruct Ht as [H1 H2]. cbn in *. inversion Ho; subst. auto.
Qed.
Lemma source_list_in n t : tok_in t -> sum_in (fun x => Forall source_in (fst x) /\ opt_in message_in (snd x)) (snd (sparse_source_list P SP hf n t)).
Proof.
  intros (Ht & _). assert (E : Forall message_in [error_at call_site [s_tok t] (txt "expected square brackets")]).
  { constructor; [|constructor]. apply error_in; [exact H0|]. apply stream_cons. split; [exact Ht|constructor]. }
  unfold sparse_source_list. destruct (s_tok t) as [? ?|? ? ?|? ?|[] g gs] eqn:Et; try exact E. clear E.
  assert (Hc : U (ds_close gs) /\ stream_in g).
  { cbn in Ht. inversion Ht as [|? ? _ G1]; subst. inversion G1 as [|? ? Hc G2]; subst. inversion G2; auto. }
  destruct Hc as [Hc Hg].
  assert (G := terminated_in (fun x => source_in (fst x) /\ opt_in message_in (snd x)) (ds_close gs) (sparse_source_value P SP hf) Hc source_value_in _ (anns_in g Hg) None n).
  destruct (sparse_terminated _ _ _ _ _) as [n' [r|e]]; [|exact G]. apply unexpected_all, G.
Qed.
Definition loop_in (l : sloop_item) : Prop := Forall source_in (sl_values l).
Lemma loop_alias_in t rest : Forall tok_in (t :: rest) -> sum_in (fun _ => True) (sparse_loop_alias P t rest).
Proof.
  intros H. assert (E : Forall message_in [expected_ident call_site (stoks (t :: rest))]) by (constructor; [apply ident_in; [exact H0|apply toks_in, H]|constructor]).
  unfold sparse_loop_alias. destruct (s_tok t) as [x s|? ? ?|? ?|[] g gs]; try exact E.
  - destruct (ident_allowed P x); [exact Logic.I|exact E].
  - inversion H as [|? ? Ht _]; subst. destruct Ht as (_ & _ & _ & Ht). destruct (s_pattern t) as [p|e]; [exact Logic.I|].
    cbn [sum_in]. apply combine_in; [apply place_in; [exact H0|apply toks_in, H]|]. constructor; [exact Ht|constructor; [exact E|constructor]].
Qed.
Definition loops_read_in (x : list sloop_item * list satok * option syn_message) : Prop :=
  let '(items, rest, u) := x in Forall loop_in items /\ Forall tok_in rest /\ opt_in message_in u.
Lemma loops_in : forall m l, List.length l <= m -> Forall tok_in l -> forall n, sum_in loops_read_in (snd (sparse_loops P SP hf l n)).
Proof.
  induction m as [|m IH]; intros l Hm H n.
  { destruct l; [|cbn in Hm; lia]. repeat split; constructor. }
  destruct l as [|f l]; [repeat split; constructor|]. cbn [sparse_loops]. destruct (is_word _ _); [|repeat split; [constructor|exact H]].
  inversion H as [|? ? Hf Hl]; subst. destruct l as [|p l]; [repeat constructor; exact H0|].
  assert (Ha := loop_alias_in p l Hl). destruct (sparse_loop_alias P p l) as [al|e]; [|exact Ha]. inversion Hl as [|? ? Hp Hl']; subst.
  destruct l as [|k l]; [repeat constructor; exact H0|].
  destruct (is_word _ _); [|constructor; [apply error_in; [exact H0|apply toks_in, Hl']|constructor]]. inversion Hl' as [|? ? Hk Hl2]; subst.
  destruct l as [|s l]; [repeat constructor; exact H0|]. inversion Hl2 as [|? ? Hs Hl3]; subst.
  assert (R := source_list_in n s Hs). destruct (sparse_source_list P SP hf n s) as [n1 [[vals u]|e]]; [|exact R].
  assert (Hm' : List.length l <= m) by (cbn in Hm; lia). specialize (IH l Hm' Hl3 n1).
  destruct (sparse_loops P SP hf l n1) as [n2 [[[items rest] u']|e]]; [|exact IH]. cbn in *. destruct R as [R1 R2], IH as (I1 & I2 & I3).
  split; [constructor; assumption|]. split; [exact I2|apply first_some_in; assumption].
Qed.

Definition spec_all_in (s : salias_spec) : Prop := Forall sitem_in (ss_items s).
Definition header_read_in (x : option (list sloop_item) * option salias_spec * list satok * option syn_message) : Prop :=
  let '(loops, spec, rest, u) := x in opt_in (Forall loop_in) loops /\ opt_in spec_all_in spec /\ Forall tok_in rest /\ opt_in message_in u.
Lemma header_in n l : Forall tok_in l -> sum_in header_read_in (sparse_header P SP hf n l).
Proof.
  intros H. unfold sparse_header. assert (G := loops_in _ l (le_n _) H n). destruct (sparse_loops P SP hf l n) as [n1 [[[loops l1] u1]|e]]; [|exact G].
  destruct G as (G1 & G2 & G3). assert (Hl : opt_in (Forall loop_in) (match loops with [] => None | _ => Some loops end)) by (destruct loops; [exact Logic.I|exact G1]).
  destruct (speek_ident P l1); [|repeat split; try assumption]. assert (S := spec_in l1 G2 None None n1).
  destruct (snd (sparse_spec P SP hf l1 None None n1)) as [[[[items used] l2] u2]|e]; [|exact S]. destruct S as (S1 & S2 & S3).
  cbn. repeat split; try assumption. apply first_some_in; assumption.
Qed.
Definition ast_in (a : sraw_ast (list pstmt)) : Prop :=
  opt_in (Forall loop_in) (sa_loops a) /\ opt_in spec_all_in (sa_spec a) /\ block_in U (sa_block a).
Lemma finish_in sc u rest ast : opt_in message_in u -> stream_in rest -> ast_in ast -> sum_in ast_in (sp_ast (finish sc u rest ast)).
Proof.
  intros Hu Hr Ha. unfold finish. destruct u as [m|]; [repeat constructor; apply Hu|]. destruct rest as [|t r]; [exact Ha|].
  apply stream_cons in Hr as [Hr _]. cbn. constructor; [apply unexpected_in, Hr|constructor].
Qed.
Lemma func_macro_in n ts : stream_in ts -> sum_in ast_in (sp_ast (sparse_func_macro P SP hf n ts)).
Proof.
  intros H. unfold sparse_func_macro. assert (G := header_in n _ (anns_in ts H)). destruct (sparse_header P SP hf n _) as [[[[loops spec] l] u1]|e]; [|exact G].
  destruct G as (G1 & G2 & G3 & G4). apply toks_in in G3. destruct (spre_block SP (stoks l)) as [[[block k] u2]|] eqn:E; [|apply (inherited_block_error _ _ IP _ _ H0 HJ G3)].
  destruct (inherited_pre_block _ _ IP _ _ E U H0 HJ G3) as [Hb Hu]. assert (Hk := skipn_in k _ G3).
  assert (Ha : ast_in {| sa_loops := loops; sa_spec := spec; sa_block := block |}) by (repeat split; assumption).
  assert (Hf : opt_in message_in (first_some u1 u2)) by (apply first_some_in; assumption).
  destruct (skipn k (stoks l)) as [|t r]; [apply finish_in; assumption|]. destruct (is_separator _); [|apply finish_in; assumption].
  apply stream_cons in Hk as [_ Hk]. destruct (strailing_mixed t spec); [constructor; [apply error_in; assumption|constructor]|apply finish_in; assumption].
Qed.
Lemma attr_macro_in n attr item : stream_in attr -> stream_in item -> sum_in ast_in (sp_ast (sparse_attr_macro P SP hf n attr item)).
Proof.
  intros H Hi. unfold sparse_attr_macro. assert (G := header_in n _ (anns_in attr H)). destruct (sparse_header P SP hf n _) as [[[[loops spec] l] u1]|e]; [|exact G].
  destruct G as (G1 & G2 & G3 & G4). apply toks_in in G3.
  assert (S : sum_in stream_in (sskip_separator loops spec (stoks l))).
  { destruct (stoks l) as [|t r]; [constructor|]. cbn. destruct (is_separator _); [|exact G3]. assert (G3' := G3). apply stream_cons in G3' as [_ Hr].
    destruct spec, loops; try exact Hr; try exact G3. constructor; [apply error_in; assumption|constructor]. }
  destruct (sskip_separator loops spec (stoks l)) as [rest|e]; [|exact S]. cbn [sum_in] in S.
  assert (F := finish_in (Some (suses_semicolons spec)) u1 rest {| sa_loops := loops; sa_spec := spec; sa_block := [] |} G4 S).
  assert (Ha : ast_in {| sa_loops := loops; sa_spec := spec; sa_block := [] |}) by (repeat split; assumption). specialize (F Ha).
  destruct (finish _ u1 rest _) as [sc [a|e]]; [|exact F]. clear F.
  assert (B : stream_in [sgroup Brace call_site item]) by (apply stream_sgroup; split; assumption).
  destruct (spre_block SP _) as [[[block k] u2]|] eqn:E; [|apply (inherited_block_error _ _ IP _ _ H0 HJ B)].
  destruct (inherited_pre_block _ _ IP _ _ E U H0 HJ B) as [Hb Hu]. apply finish_in; [exact Hu| |repeat split; assumption]. destruct (Nat.eqb k 1); [constructor|exact B].
Qed.

(** ** Expansion *)
Lemma stream_span_in ts : stream_in ts -> U (stream_span SO ts).
Proof.
  intros H. destruct ts as [|t r]; [exact H0|]. assert (Ht : U (span_of t)) by (apply stream_cons in H as [H _]; apply span_in, H).
  destruct r as [|t' r]; [exact Ht|]. cbn [stream_span]. destruct (join SO _ _) as [s|] eqn:E; [|exact Ht]. eapply HJ; [exact E|exact Ht|].
  apply stream_cons in H as [_ H]. assert (Hl : In (last (t' :: r) t) (t' :: r)).
  { destruct (exists_last (l := t' :: r)) as (l & x & E'); [discriminate|]. rewrite E', last_last. apply in_or_app. right. left. reflexivity. }
  apply span_in. unfold SpecSpanItem.stream_in, spans in H. rewrite Forall_forall in H |- *. intros x Hx. apply H. apply in_flat_map. eauto.
Qed.
Lemma expr_span_in e : expr_in e -> U (expr_span SO e).
Proof. destruct e as [id v|id name head args raw]; intros H; [apply stream_span_in, H|]. inversion H; assumption. Qed.
Lemma source_span_in v : source_in v -> U (source_span SO v).
Proof. destruct v as [e|s t]; intros H; [apply expr_span_in, H|apply H]. Qed.
Lemma lift_in {A} (Q : A -> Prop) r : (forall a, r = Ok a -> Q a) -> res_in U Q (slift r).
Proof. destruct r; cbn; auto. Qed.
Lemma make_items_in al sv : source_in sv -> res_in U (Forall sitem_in) (smake_spec_items SO al sv).
Proof.
  intros H. destruct al as [a|a], sv as [e|s t]; cbn [smake_spec_items].
  - constructor; [exact H|constructor].
  - apply H.
  - apply (source_span_in (SLSValue e) H).
  - destruct H as [Hs Ht]. eapply (res_bind U (fun _ => True)).
    { unfold smatch_tuples. eapply (res_bind U (fun _ => True)); [apply lift_in; auto|]. intros aks _.
      eapply (res_bind U (fun _ => True)); [apply lift_in; auto|]. intros eks _. destruct (Nat.eqb _ _); [destruct (kinds_match _ _)|]; try exact Hs; exact Logic.I. }
    intros _ _. eapply (res_bind U (fun _ => True)); [apply lift_in; auto|]. intros aliases _.
    eapply (res_bind U (Forall expr_in)).
    { apply lift_in. intros es E. apply bfs_perm in E. unfold tuple_in in Ht. rewrite Forall_forall in Ht |- *. intros x Hx. apply Ht. eapply Permutation_in; eassumption. }
    intros es Hes. cbn. revert aliases. induction Hes as [|x es Hx _ IH]; intros [|y aliases]; cbn; constructor; [exact Hx|apply IH].
Qed.
Lemma loop_items_in loops : forall vals, Forall source_in vals -> res_in U (Forall sitem_in) (sloop_items SO loops vals).
Proof.
  induction loops as [|l loops IH]; intros [|v vals] H; try constructor. inversion H; subst. cbn [sloop_items].
  eapply res_bind; [apply make_items_in; assumption|]. intros items Hi. eapply res_bind; [apply IH; assumption|]. intros rest Hr. apply Forall_app. auto.
Qed.
Definition rewrite_in (rw : salias_spec * list pstmt) : Prop := spec_all_in (fst rw) /\ block_in U (snd rw).
Lemma rewrite_for_in ast loops vals : ast_in ast -> Forall source_in vals -> res_in U rewrite_in (srewrite_for SO ast loops vals).
Proof.
  intros (_ & Hs & Hb) Hv. unfold srewrite_for. eapply res_bind; [apply loop_items_in, Hv|]. intros items Hi. split; [|exact Hb]. cbn [fst].
  destruct (sa_spec ast); cbn; [|exact Hi]. apply Forall_app. split; [exact Hi|exact Hs].
Qed.
Lemma combination_in {A} (Q : A -> Prop) is : forall ss l, Forall (Forall Q) ss -> combination is ss = Some l -> Forall Q l.
Proof.
  induction is as [|i is IH]; intros [|s ss] l H E; try (injection E as <-; constructor). cbn in E. inversion H as [|? ? Hs Hss]; subst.
  destruct (nth_error s i) as [x|] eqn:Ex; [|discriminate E]. destruct (combination is ss) as [r|] eqn:Er; [|discriminate E]. injection E as <-.
  constructor; [|eapply IH; eassumption]. apply nth_error_In in Ex. rewrite Forall_forall in Hs. auto.
Qed.
Lemma next_in {A} (Q : A -> Prop) (c : cp A) : Forall (Forall Q) (sources c) ->
  match next c with Ok (o, c') => opt_in (Forall Q) o /\ Forall (Forall Q) (sources c') | _ => True end.
Proof.
  intros H. unfold next. destruct (is_exhausted c); [split; [exact Logic.I|exact H]|]. destruct (current_combination c) as [l|] eqn:E; [|exact Logic.I].
  destruct (advance_indices c) as [[b is']|]; [|exact Logic.I]. split; [eapply combination_in; eassumption|exact H].
Qed.
Lemma expand_loop_in fuel : forall ast loops it, ast_in ast -> Forall (Forall source_in) (sources it) -> res_in U (Forall rewrite_in) (sexpand_loop SO fuel ast loops it).
Proof.
  induction fuel as [|fuel IH]; intros ast loops it Ha H; [exact Logic.I|]. cbn [sexpand_loop]. assert (Hn := next_in source_in it H).
  destruct (next it) as [[o it']|e|p]; [|exact H0|exact Logic.I]. destruct Hn as [Ho Hi]. cbn [slift sbind]. destruct o as [vals|]; [|constructor].
  eapply res_bind; [apply rewrite_for_in; assumption|]. intros rw Hrw. eapply res_bind; [apply IH; assumption|]. intros rest Hr. constructor; assumption.
Qed.
Lemma expand_in ast : ast_in ast -> res_in U (Forall rewrite_in) (sexpand SO ast).
Proof.
  intros H. assert (H' := H). destruct H' as (Hl & Hs & Hb). unfold sexpand. destruct (sa_loops ast) as [loops|].
  - apply expand_loop_in; [exact H|]. cbn. cbn in Hl. clear -Hl. induction Hl; constructor; assumption.
  - constructor; [|constructor]. split; [|exact Hb]. cbn. destruct (sa_spec ast); [exact Hs|constructor].
Qed.

(** ** Evaluation *)
Lemma places_in items : Forall sitem_in items -> Forall U (places items).
Proof. induction 1 as [|[x e] items H _ IH]; [constructor|]. unfold places. cbn. apply Forall_app. split; assumption. Qed.
Lemma place_all items s : Forall sitem_in items -> In s (call_site :: places items) -> U s.
Proof. intros H [<-|Hs]; [exact H0|]. apply places_in in H. rewrite Forall_forall in H. auto. Qed.
Lemma firstn_forall {A} (Q : A -> Prop) k l : Forall Q l -> Forall Q (firstn k l).
Proof. intros H. revert k. induction H; intros [|k]; cbn; auto. Qed.
Lemma call_heads_in e f s : In (f, s) (call_heads e) -> In s (expr_spans e).
Proof.
  induction e as [id v|id name head args raw IH] using sexpr_ind'; intros H; [destruct H|]. cbn in H |- *. destruct H as [H|H]; [injection H as _ <-; left; reflexivity|].
  right. apply in_or_app. left. apply in_flat_map in H as (a & Ha & H). apply in_flat_map. exists a. split; [exact Ha|]. rewrite Forall_forall in IH. auto.
Qed.
Lemma substitutions_in seed n items : NoDup (item_ids (erase_spec items)) -> Forall sitem_in items ->
  res_in U (Forall (fun b => stream_in (sto_tokens (snd b)))) (smake_substitutions O SO (new_initialized O seed n) items).
Proof.
  intros Hnd Hi. destruct (smake_substitutions _ _ _ items) as [bs|er s|p] eqn:E; [| |exact Logic.I].
  - apply Forall_forall. intros [x v] Hx. apply in_split in Hx as (pre & post & ->). cbn [snd].
    assert (H := spans_of_bindings O SO seed n L I items _ pre x v post Hnd E eq_refl).
    apply Forall_forall. intros s Hs. apply H in Hs. eapply place_all; [|exact Hs]. apply firstn_forall, Hi.
  - destruct (smake_substitutions_error O SO seed n L I items er s Hnd E) as (pre & name & e & post & -> & Hc).
    assert (He : expr_in e) by (apply Forall_app in Hi as [_ Hi]; inversion Hi; assumption). cbn.
    assert (HS : forall s, In s (expr_spans e) -> U s) by (intros s' Hs'; unfold SpecSpanMacro.expr_in in He; rewrite Forall_forall in He; auto).
    destruct (class er); try contradiction.
    + eapply place_all; [|exact Hc]. apply Forall_app in Hi as [Hp Hi]. apply Forall_app. split; [exact Hp|]. inversion Hi; subst. constructor; [assumption|constructor].
    + apply HS. eapply call_heads_in, Hc.
    + destruct Hc as (_ & _ & Hw). apply whole_expr_span in Hw as ->. apply expr_span_in, He.
    + destruct Hc as (id & args & raw & ->). apply HS. left. reflexivity.
    + destruct Hc as (id & args & raw & ->). apply HS. left. reflexivity.
Qed.

(** ** The macros *)
Lemma assoc_in {A} x (l : list (str * A)) v : assoc_str x l = Some v -> exists y, In (y, v) l.
Proof. induction l as [|[y w] l IH]; [discriminate|]. cbn. destruct (str_eqb x y); [intros H; injection H as ->; eauto|]. intros H. destruct (IH H) as (z & Hz). eauto. Qed.
Lemma substitute_block_in t block bs : block_in U block -> Forall (fun b => stream_in (sto_tokens (snd b))) bs -> res_in U stream_in (ssubstitute O SO SY t block bs).
Proof.
  intros Hb Hbs. unfold ssubstitute. eapply res_bind.
  - apply block_visit_in; [exact H0| |exact I|apply IY|exact Hb].
    intros x ts Hx. destruct (assoc_str x bs) as [v|] eqn:E; [|discriminate Hx]. injection Hx as <-. apply assoc_in in E as (y & E).
    rewrite Forall_forall in Hbs. apply (Hbs _ E).
  - intros b Hb'. cbn. apply scope_emit_in; [exact H0|]. eapply stream_incl; [exact H0| |apply (inherited_forest _ IY)]. apply block_tokens_in; assumption.
Qed.
Lemma execute_in seed n t ast : NoDup (flat_map ids (ast_exprs (plain_ast (map erase_stmt) ast))) -> ast_in ast ->
  res_in U stream_in (sexecute O SO SY (new_initialized O seed n) t ast).
Proof.
  intros Hnd Ha. unfold sexecute. assert (Hx := expand_in ast Ha). destruct (sexpand SO ast) as [rws|er s|p] eqn:E; [|exact Hx|exact Logic.I].
  cbn [sbind]. eapply (res_bind U (Forall stream_in)).
  - apply res_mapM. apply Forall_forall. intros rw Hin. cbn in Hx. rewrite Forall_forall in Hx. destruct (Hx _ Hin) as [H1 H2].
    assert (Hx' : expand (plain_ast (map erase_stmt) ast) = Ok (map (plain_rewrite (map erase_stmt)) rws)) by (rewrite <- (expand_erase SO), E; reflexivity).
    assert (Hpart := expand_part _ _ _ Hx' (in_map (plain_rewrite (map erase_stmt)) _ _ Hin)).
    unfold sexecute_block_rewrite. eapply res_bind.
    + apply substitutions_in; [|exact H1]. rewrite item_ids_exprs. eapply part_NoDup; [apply part_flat_map; exact Hpart|exact Hnd].
    + intros bs Hbs. apply substitute_block_in; assumption.
  - intros l Hl. cbn. induction Hl; [constructor|]. cbn. apply stream_app. auto.
Qed.
End Places.

Section Uses.
Context (O : oracles) (SO : soracles) (P : parsers) (SP : sparsers) (Y : syntax) (SY : ssyntax).
Context (L : spanless O SO) (LP : spanless_parsers P SP) (LY : spanless_syntax Y SY).
Context (I : inherited SO) (IP : inherited_parsers SO SP) (IY : inherited_syntax SY).
Context (U : span -> Prop) (H0 : U call_site) (HJ : joins_in SO U).

Definition output_in (o : soutput) : Prop :=
  match o with
  | SCode ts => stream_in U ts
  | SSyntaxError ms => Forall (message_in U) ms
  | SCompileError _ s => U s
  | SPanicked _ => True
  end.
Lemma close_in t o : output_in o -> output_in (snd (sclose t o)).
Proof. intros H. unfold sclose. destruct (scope_drop t); [exact H|exact H|exact Logic.I]. Qed.
Lemma core_in t u : Forall U (input_spans (su_source u)) -> output_in (snd (scompose_core O SO SY t (sinvocation_for O P SP u))).
Proof.
  intros Hu. unfold scompose_core. destruct u as [s seed first n]. unfold sinvocation_for, sinvocation_of.
  cbn [su_source su_seed su_first_id su_next_id sinv_prefix sinv_parsed sinv_seed sinv_first_id] in *.
  destruct (scoped _) as [t2|e|p]; [|exact H0|exact Logic.I].
  set (p := match s with SCompose ts => _ | SComposeIdents ts => _ | SComposeItem a b => _ end).
  destruct (run_parser _ t2) as [t3|e|q]; [|apply close_in; exact H0|apply close_in; exact Logic.I].
  assert (Hp : sum_in U (ast_in U) (sp_ast p)).
  { subst p. destruct s as [ts|ts|attr item]; cbn [input_spans] in Hu; [apply (func_macro_in SO)|apply (func_macro_in SO)|apply Forall_app in Hu as [H1 H2]; apply (attr_macro_in SO)]; assumption. }
  assert (Hids : forall ast, p_ast (plain_parsed p) = Ok (Some ast) -> NoDup (flat_map ids (ast_exprs ast))).
  { intros ast Hast. subst p. rewrite (parsed_erase O P SP LP) in Hast. apply (parsed_source O P seed first n (erase_source s) ast Hast). }
  cbn [plain_parsed p_ast] in Hids. destruct (sp_ast p) as [ast|e]; [|apply close_in; exact Hp].
  apply close_in. assert (G := execute_in O SO SY L I IY U H0 HJ seed first t3 ast (Hids _ eq_refl) Hp).
  destruct (sexecute _ _ _ _ t3 ast); exact G.
Qed.
Lemma run_in uses : Forall (fun u => Forall U (input_spans (su_source u))) uses -> forall t,
  Forall output_in (snd (SpanMacro.srun O SO SY t (map (sinvocation_for O P SP) uses))).
Proof.
  induction 1 as [|u uses Hu _ IH]; intros t; [constructor|]. cbn [map SpanMacro.srun]. assert (G := core_in t u Hu).
  destruct (scompose_core O SO SY t (sinvocation_for O P SP u)) as [t1 o]. specialize (IH t1). destruct (SpanMacro.srun O SO SY t1 _) as [t2 os]. constructor; assumption.
Qed.
End Uses.

(** ** The compiler is given spans of the invocation only *)
Lemma emitted_in U o ts : output_in U o -> emitted o = Some ts -> Forall U (spans ts).
Proof.
  assert (G : forall ms, Forall (message_in U) ms -> Forall U (spans (flat_map compile_error_tokens ms))).
  { intros ms Hm. apply stream_flat_map. eapply Forall_impl; [|exact Hm]. intros m [Ha Hb].
    unfold stream_in. cbn. repeat (apply Forall_cons; [assumption|]). constructor. }
  destruct o as [c|ms|f s|p]; intros Ho E; cbn [emitted said] in E; try discriminate; injection E as <-.
  - exact Ho.
  - apply G. exact Ho.
  - apply (G [new_message s (message f)]). repeat constructor; exact Ho.
Qed.

Section Each.
Context (O : oracles) (SO : soracles) (P : parsers) (SP : sparsers) (Y : syntax) (SY : ssyntax).
Context (L : spanless O SO) (LP : spanless_parsers P SP).
Context (I : inherited SO) (IP : inherited_parsers SO SP) (IY : inherited_syntax SY).

Lemma run_each uses : forall t, Forall2 (own_spans SO) uses (snd (SpanMacro.srun O SO SY t (map (sinvocation_for O P SP) uses))).
Proof.
  induction uses as [|u uses IH]; intros t; [constructor|]. cbn [map SpanMacro.srun].
  destruct (scompose_core O SO SY t (sinvocation_for O P SP u)) as [t1 o] eqn:E. specialize (IH t1).
  destruct (SpanMacro.srun O SO SY t1 _) as [t2 os]. constructor; [|exact IH].
  intros U H0 HJ Hu ts Ho. eapply emitted_in; [|exact Ho].
  assert (G := core_in O SO P SP SY L LP I IP IY U H0 HJ t u Hu). rewrite E in G. exact G.
Qed.
Lemma uses_places uses : Forall2 (own_spans SO) uses (sexpand_uses O SO P SP SY uses).
Proof. apply run_each. Qed.
Lemma uses_places_stable (HJ : forall a b s, join SO a b = Some s -> s = a \/ s = b) uses :
  Forall2 (fun u o => forall ts, emitted o = Some ts -> incl (spans ts) (call_site :: input_spans (su_source u)))
    uses (sexpand_uses O SO P SP SY uses).
Proof.
  induction (uses_places uses) as [|u o us os H _ IH]; constructor; [|exact IH]. intros ts E s Hs.
  assert (G : Forall (fun s => In s (call_site :: input_spans (su_source u))) (spans ts)).
  { apply H; [left; reflexivity| | |exact E].
    - intros a b c Hj Ha Hb. destruct (HJ a b c Hj) as [->| ->]; assumption.
    - apply Forall_forall. intros x Hx. right. exact Hx. }
  exact (proj1 (Forall_forall _ _) G s Hs).
Qed.
End Each.
