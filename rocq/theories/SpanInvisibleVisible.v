(** Without invisible groups in the input, the parser of SpanInvisible.v is that of
    SpanParse.v. *)
From Coq Require Import String Lia.
From Verif Require Import Base Token Types Values Ast Item Interpreter Parse Failures Macro InvisibleParse SpecInvisible InvisibleProofs InvisibleTop
  SpanTokens SpanWalker SpanValues SpanEval SpanItem SpanParse SpanExpand SpanMacro SpanParseProofs SpanInvisible SpanInvisibleMacro SpanInvisibleProofs.
Open Scope list_scope.

Notation V ts := (all_visible (map erase ts) = true).
Lemma V_cons t ts : V (t :: ts) <-> visible (erase t) = true /\ V ts.
Proof. cbn. unfold all_visible. cbn [forallb]. rewrite andb_true_iff. reflexivity. Qed.
Lemma V_skipn k ts : V ts -> V (skipn k ts).
Proof. revert ts. induction k as [|k IH]; intros [|t ts] H; try exact H. apply IH. apply V_cons in H. apply H. Qed.
Lemma sadvance_skipn k ts : V ts -> sadvance k ts = skipn k ts.
Proof.
  revert ts. induction k as [|k IH]; intros [|t ts] H; try reflexivity. apply V_cons in H as [H1 H2].
  destruct t as [| | |[] g s]; cbn [sadvance skipn]; try apply IH, H2. discriminate H1.
Qed.
Lemma snext_in_visible t : visible (erase t) = true -> snext_in t = (0, Some t).
Proof. intros H. destruct t as [| | |[] g s]; try reflexivity. discriminate H. Qed.
Lemma snext_visible ts : V ts -> snext ts = (0, head ts).
Proof. destruct ts as [|t ts]; intros H; [reflexivity|]. apply V_cons in H as [H _]. cbn [snext]. rewrite (snext_in_visible t H). reflexivity. Qed.
Lemma until_visible term ts : V ts -> through_until term ts = suntil term ts.
Proof.
  induction ts as [|t ts IH]; intros H; [reflexivity|]. cbn [through_until suntil]. rewrite (snext_visible _ H). cbn [snd head].
  apply V_cons in H as [_ H]. rewrite (IH H). reflexivity.
Qed.
Lemma V_until term ts : V ts -> V (suntil term ts).
Proof. induction ts as [|t ts IH]; intros H; [reflexivity|]. cbn [suntil]. destruct (term _); [reflexivity|]. apply V_cons in H as [A B]. apply V_cons. auto. Qed.
Lemma entries_visible ts : V ts -> entries_of ts = List.length ts.
Proof.
  unfold entries_of. induction ts as [|t ts IH]; intros H; [reflexivity|]. apply V_cons in H as [A B].
  cbn [map all_entries fold_right List.length]. fold (all_entries (map erase ts)). rewrite (IH B). destruct t as [| | |[] g s]; try reflexivity. discriminate A.
Qed.
Lemma ends_visible term ts : V ts -> ends_at term (map erase ts) = ends term (map erase ts).
Proof.
  destruct ts as [|t ts]; intros H; [reflexivity|]. apply V_cons in H as [H _]. unfold ends_at. cbn [map next ends].
  replace (next_in (erase t)) with (0, Some (erase t)); [reflexivity|]. destruct t as [| | |[] g s]; try reflexivity. discriminate H.
Qed.
Lemma distance_visible k ts : V ts -> distance k (map erase ts) = distance_to k (map erase ts).
Proof. intros H. unfold distance, distance_to. rewrite (visible_taken _ H). reflexivity. Qed.

Section Parse.
Context (P : parsers) (SP : sparsers) (hf : str -> bool).

Lemma value_visible term n ts : V ts -> through_value P SP term n ts = sparse_value P SP term n ts.
Proof.
  intros H. unfold through_value, sparse_value.
  assert (A : through_attempts P SP ts = sattempts P SP ts).
  { unfold through_attempts, sattempts, through_underscore, through_ident. rewrite (snext_visible _ H). destruct ts; reflexivity. }
  assert (B : forall l acc, fold_left (through_attempt term ts) l acc = fold_left (sattempt term ts) l acc).
  { induction l as [|o l IH]; intros acc; [reflexivity|]. cbn [fold_left]. rewrite IH. f_equal. destruct acc as [m best]. unfold through_attempt, sattempt, through_try_parse, stry_parse.
    destruct o as [[[v k] u]|]; [|reflexivity]. rewrite (sadvance_skipn _ _ H), ends_visible by apply V_skipn, H. destruct (ends _ _); [|reflexivity]. rewrite (distance_visible _ _ H). reflexivity. }
  rewrite A, B, (until_visible _ _ H), (entries_visible _ (V_until _ _ H)). reflexivity.
Qed.

(** An entry is a token, which reads as [sann] has it. *)
Definition tok_same (a b : satok) : Prop :=
  s_tok a = s_tok b /\ (forall n, s_args a n = s_args b n) /\ (forall n, s_tuple a n = s_tuple b n) /\ s_pattern a = s_pattern b.
Definition entry_same (e : sentry) (b : satok) : Prop := match e with STok a => tok_same a b | SOpen _ => False end.
Notation same := (Forall2 entry_same).
Lemma etoks_same l l' : same l l' -> etoks l = stoks l'.
Proof. induction 1 as [|e b l l' H _ IH]; [reflexivity|]. destruct e as [t|a]; [destruct H|]. change (s_tok a :: etoks l = s_tok b :: stoks l'). rewrite (proj1 H), IH. reflexivity. Qed.
Lemma sseen_same l l' : same l l' -> sseen l = l.
Proof. destruct 1 as [|e b l l' H _]; [reflexivity|]. destruct e; [destruct H|reflexivity]. Qed.
Lemma length_same l l' : same l l' -> List.length l = List.length l'.
Proof. induction 1; cbn; congruence. Qed.
Lemma skipn_same k l l' : same l l' -> same (skipn k l) (skipn k l').
Proof. intros H. revert k. induction H; intros [|k]; cbn; auto. Qed.
Lemma stoks_skipn k l : stoks (skipn k l) = skipn k (stoks l).
Proof. revert l. induction k as [|k IH]; intros [|t l]; try reflexivity. apply IH. Qed.

(** The tokens ahead, one by one. *)
Ltac step H := let Hs := fresh "Sm" in pose proof (sseen_same _ _ H) as Hs; rewrite Hs; clear Hs.
Lemma expected_same x scope l l' : same l l' -> through_expected x scope l = expected_punct x scope (stoks l').
Proof.
  intros H. unfold through_expected, expected_punct. step H. rewrite (etoks_same _ _ H). destruct H as [|[t|a] b l l' Hb H]; [reflexivity|destruct Hb|]. destruct Hb as [E _].
  cbn [stoks map SpanParse.place]. rewrite <- E. destruct a as [[? ?|c j s|? ?|? ? ?] ? ? ?]; try reflexivity. cbn [s_tok open_span span_of]. destruct (N.eqb c 39); reflexivity.
Qed.
Lemma ident_same scope l l' : same l l' -> through_expected_ident scope l = expected_ident scope (stoks l').
Proof.
  intros H. unfold through_expected_ident, expected_ident. step H. rewrite (etoks_same _ _ H). destruct H as [|[t|a] b l l' Hb H]; [reflexivity|destruct Hb|]. destruct Hb as [E _].
  cbn [stoks map]. rewrite <- E. destruct a as [[? ?|c j s|? ?|? ? ?] ? ? ?]; reflexivity.
Qed.
Lemma call_same n l l' : same l l' -> through_call P hf n l = sparse_call P hf n l'.
Proof.
  intros H. unfold through_call, sparse_call. step H. rewrite (etoks_same _ _ H). destruct H as [|[t|a] b l l' Hb H]; [reflexivity|destruct Hb|]. destruct Hb as [E _].
  destruct a as [a a1 a2 a3], b as [b b1 b2 b3]. cbn [s_tok] in E. subst b. destruct a as [x s|? ? ?|? ?|? ? ?]; try reflexivity. step H.
  destruct H as [|[t|g] g' l l' Hb H]; [reflexivity|destruct Hb|]. destruct Hb as (E & E1 & _).
  destruct g as [g g1 g2 g3], g' as [g' h1 h2 h3]. cbn [s_tok s_args] in *. subst g'. destruct g as [? ?|? ? ?|? ?|[] inner gs]; try reflexivity.
  destruct (ident_allowed P x && hf x); [|reflexivity]. rewrite E1. destruct (h1 n) as [n1 args]. cbn [stoks map SpanParse.place s_tok open_span span_of List.length].
  replace (S (S (List.length l)) - List.length l) with 2 by lia. reflexivity.
Qed.
Lemma expr_same n l l' : same l l' -> V (stoks l') -> through_expr P SP hf n l (stoks l') = sparse_expr_ P SP hf n l'.
Proof. intros H Hv. unfold through_expr, sparse_expr_. rewrite (call_same n _ _ H), (value_visible _ _ _ Hv). reflexivity. Qed.

Section Terminated.
Context {A : Type} (scope : span) (item : N -> list sentry -> list stt -> N * (A * nat + messages)) (item' : N -> list satok -> N * (A * nat + messages)).
Context (Hitem : forall n l l', same l l' -> V (stoks l') -> item n l (stoks l') = item' n l').
Definition at_place (s : option nat) : splace := match s with None => SItem | Some k => SSkip k end.
Lemma terminated_same l l' : same l l' -> forall skip n, V (stoks l') ->
  through_terminated scope item l (stoks l') (at_place skip) n = sparse_terminated scope item' l' skip n.
Proof.
  induction 1 as [|e b l l' Hb H IH]; intros skip n Hv; [destruct skip; reflexivity|].
  assert (HH : same (e :: l) (b :: l')) by (constructor; assumption). destruct e as [t|a]; [destruct Hb|]. assert (E := proj1 Hb).
  pose proof (expected_same "," scope _ _ HH) as X. pose proof (fun n => Hitem n _ _ HH Hv) as I.
  cbn [through_terminated sparse_terminated]. rewrite (sadvance_skipn 1 _ Hv), X, I, E. cbn [stoks map skipn] in *. apply V_cons in Hv as [_ Hv].
  pose proof (fun n => IH None n Hv) as I0. pose proof (fun k n => IH (Some k) n Hv) as I1. cbn [at_place] in I0, I1. unfold stoks in I0, I1.
  destruct skip as [[|k]|]; cbn [at_place].
  - destruct (is_comma _); [apply I0|reflexivity].
  - apply I1.
  - destruct (item' n (b :: l')) as [n1 [[x [|k]]|m]]; [| |reflexivity].
    + destruct (is_comma _); [rewrite I0|]; reflexivity.
    + rewrite I1. reflexivity.
Qed.
End Terminated.

Lemma left_over_visible ts : V ts -> left_over ts = option_map unexpected_token (head ts).
Proof. intros H. unfold left_over. rewrite (snext_visible _ H). reflexivity. Qed.
Lemma auntil_same term l l' : same l l' -> same (firstn (List.length (sauntil term l')) l) (sauntil term l').
Proof. induction 1 as [|e b l l' Hb H IH]; [constructor|]. cbn [sauntil]. destruct (term _); [constructor|]. constructor; assumption. Qed.
Lemma stoks_auntil term l : stoks (sauntil term l) = suntil term (stoks l).
Proof. induction l as [|b l IH]; [reflexivity|]. cbn. destruct (term _); [reflexivity|]. cbn. f_equal. exact IH. Qed.
Lemma arg_same n l l' : same l l' -> V (stoks l') -> through_arg P SP hf n l (stoks l') = sparse_arg P SP hf n l'.
Proof.
  intros H Hv. unfold through_arg, sparse_arg. rewrite (until_visible _ _ Hv), <- stoks_auntil. assert (Hp : V (stoks (sauntil is_comma l'))) by (rewrite stoks_auntil; apply V_until, Hv).
  rewrite (entries_visible _ Hp). unfold stoks at 1 4. rewrite map_length. rewrite (expr_same n _ _ (auntil_same _ _ _ H) Hp).
  destruct (sparse_expr_ P SP hf n _) as [n' [[e k] u]]. rewrite (sadvance_skipn _ _ Hp), (left_over_visible _ (V_skipn k _ Hp)).
  destruct u; [reflexivity|]. destruct (skipn k (stoks _)); reflexivity.
Qed.
Lemma args_same scope l l' n : same l l' -> V (stoks l') -> through_args P SP hf scope l (stoks l') n = sparse_args P SP hf scope l' n.
Proof. intros H Hv. unfold through_args, sparse_args. change SItem with (at_place None). rewrite (terminated_same scope _ _ arg_same _ _ H None n Hv). reflexivity. Qed.
Lemma one_less n : S n - n = 1.
Proof. lia. Qed.
Ltac first_tok H Hb :=
  destruct H as [|[?t|[?a ?a1 ?a2 ?a3]] [?b ?b1 ?b2 ?b3] ?l ?l' Hb H]; [|destruct Hb|].
Lemma tuple_value_same n l l' : same l l' -> V (stoks l') -> through_tuple_value P SP hf n l (stoks l') = sparse_tuple_value P SP hf n l'.
Proof.
  intros H Hv. unfold through_tuple_value, sparse_tuple_value. rewrite (expr_same n _ _ H Hv). step H. first_tok H Hb; [reflexivity|].
  destruct Hb as (E & _ & E2 & _). cbn [s_tok s_tuple] in *. subst b. destruct a as [? ?|? ? ?|? ?|[] g gs]; try reflexivity. rewrite E2. destruct (b2 n) as [n' [[t u]|m]]; [|reflexivity].
  cbn [List.length]. rewrite one_less. reflexivity.
Qed.
Lemma tuple_same scope l l' n : same l l' -> V (stoks l') -> through_tuple P SP hf scope l (stoks l') n = sparse_tuple P SP hf scope l' n.
Proof. intros H Hv. unfold through_tuple, sparse_tuple. change SItem with (at_place None). rewrite (terminated_same scope _ _ tuple_value_same _ _ H None n Hv). reflexivity. Qed.
Lemma pattern_value_same scope n l l' ts : same l l' -> through_pattern_value P scope n l ts = sparse_pattern_value P scope n l'.
Proof.
  intros H. unfold through_pattern_value, sparse_pattern_value. rewrite (ident_same scope _ _ H). step H. first_tok H Hb; [reflexivity|].
  destruct Hb as (E & _ & _ & E3). cbn [s_tok s_pattern] in *. subst b. cbn [List.length]. rewrite one_less.
  destruct a as [? ?|? ? ?|? ?|[] g gs]; try reflexivity. rewrite E3. reflexivity.
Qed.
Lemma pattern_same scope l l' : same l l' -> V (stoks l') -> through_pattern P scope l (stoks l') = sparse_pattern P scope l'.
Proof.
  intros H Hv. unfold through_pattern, sparse_pattern. change SItem with (at_place None). rewrite (terminated_same scope _ (sparse_pattern_value P scope) (fun n l l' H _ => pattern_value_same scope n l l' _ H) _ _ H None 0%N Hv). reflexivity.
Qed.
Lemma stoks_sann ts : stoks (map (sann P SP hf) ts) = ts.
Proof. unfold stoks. rewrite map_map. rewrite <- (map_id ts) at 2. apply map_ext. intros [| | |[] ? ?]; reflexivity. Qed.
Lemma ann_same t : visible (erase t) = true -> same (through_ann P SP hf t) [sann P SP hf t].
Proof.
  assert (R : forall a, entry_same (STok a) a) by (intros a; repeat split; reflexivity).
  induction t as [x s|c j s|l s|d ts s IH] using stt_ind'; intros H; try (constructor; [apply R|constructor]).
  destruct d; try (constructor; [apply R|constructor]); [|discriminate H]. cbn [erase visible] in H. change (V ts) in H.
  assert (G : same (flat_map (through_ann P SP hf) ts) (map (sann P SP hf) ts)).
  { clear s. induction IH as [|t ts Ht _ IH]; [constructor|]. apply V_cons in H as [H1 H2]. apply (Forall2_app (l1' := [_])); auto. }
  assert (G' := stoks_sann ts). constructor; [|constructor]. cbn [through_ann sann entry_same].
  repeat split; cbn [s_args s_tuple s_pattern]; intros; rewrite <- G' at 2; [apply args_same|apply tuple_same|apply pattern_same]; try exact G; rewrite G'; exact H.
Qed.
Lemma anns_same ts : V ts -> same (flat_map (through_ann P SP hf) ts) (map (sann P SP hf) ts).
Proof. induction ts as [|t ts IH]; intros H; [constructor|]. apply V_cons in H as [H1 H2]. apply (Forall2_app (l1' := [_])); [apply ann_same, H1|apply IH, H2]. Qed.

(** ** Alias definitions *)
Lemma V_stoks_skipn k l : V (stoks l) -> V (stoks (skipn k l)).
Proof. rewrite stoks_skipn. apply V_skipn. Qed.
Lemma spec_item_same n l l' : same l l' -> V (stoks l') ->
  through_spec_item P SP hf n l (stoks l') =
  second (fun r => match r with inl (i, k, u) => inl (i, S k, u) | inr e => inr e end) (sparse_spec_item P SP hf n l').
Proof.
  intros H Hv. unfold through_spec_item, sparse_spec_item. pose proof (ident_same call_site _ _ H) as X. rewrite X. clear X. step H. first_tok H Hb; [reflexivity|].
  destruct Hb as (E & _). cbn [s_tok] in *. subst b. destruct a as [x s|? ? ?|? ?|? ? ?]; try reflexivity. destruct (ident_allowed P x); [|reflexivity].
  pose proof (expected_same "=" call_site _ _ H) as X. rewrite X. clear X. step H.
  destruct H as [|[t|eq] eq' l l'1 Hb H]; [reflexivity|destruct Hb|]. rewrite (proj1 Hb). destruct (is_equals _); [|reflexivity].
  cbv zeta. cbn [List.length]. replace (S (S (List.length l)) - List.length l) with 2 by lia. rewrite (sadvance_skipn 2 _ Hv). apply (V_stoks_skipn 2) in Hv. cbn [skipn] in Hv.
  match goal with |- context [skipn 2 (stoks ?x)] => change (skipn 2 (stoks x)) with (stoks l'1) end. rewrite (expr_same n _ _ H Hv). destruct (sparse_expr_ P SP hf n l'1) as [n' [[e k] u]].
  rewrite (sadvance_skipn k _ Hv), (ends_visible _ _ (V_skipn k _ Hv)). rewrite <- stoks_skipn. unfold second. cbn [fst snd]. destruct (ends _ _); [reflexivity|].
  unfold through_expected_separator, expected_separator. rewrite !(expected_same _ call_site _ _ (skipn_same k _ _ H)), (etoks_same _ _ (skipn_same k _ _ H)). reflexivity.
Qed.
Lemma peek_same l l' : same l l' -> through_peek_ident P l = speek_ident P l'.
Proof.
  intros H. unfold through_peek_ident, speek_ident. step H. first_tok H Hb; [reflexivity|]. destruct Hb as (E & _). cbn [s_tok] in *. subst b. destruct a; reflexivity.
Qed.
Lemma spec_same l l' : same l l' -> forall skip used n, V (stoks l') ->
  through_spec P SP hf l (stoks l') (at_place skip) used n =
  second (fun r => match r with inl (items, us, rest, u) => inl (items, us, stoks rest, u) | inr e => inr e end) (sparse_spec P SP hf l' skip used n).
Proof.
  induction 1 as [|e b l l' Hb H IH]; intros skip used n Hv; [destruct skip as [[|k]|]; reflexivity|].
  assert (HH : same (e :: l) (b :: l')) by (constructor; assumption). pose proof (spec_item_same n _ _ HH Hv) as I. pose proof (etoks_same _ _ HH) as X.
  destruct e as [t|a]; [destruct Hb|]. assert (E := proj1 Hb).
  assert (Ha : sadvance 1 (stoks (b :: l')) = stoks l') by (rewrite (sadvance_skipn 1 _ Hv); reflexivity).
  pose proof Hv as Hv1. cbn [stoks map] in Hv1. apply V_cons in Hv1 as [_ Hv1]. fold (stoks l') in Hv1.
  destruct skip as [[|k]|]; cbn [at_place through_spec sparse_spec]; rewrite Ha.
  - rewrite X, E, (etoks_same _ _ H), (peek_same _ _ H). destruct (is_separator _); [|reflexivity]. cbv zeta. destruct (match used with Some u => _ | None => _ end); [reflexivity|].
    destruct (speek_ident P l'); [|reflexivity]. exact (IH None _ n Hv1).
  - exact (IH (Some k) used n Hv1).
  - rewrite I. destruct (sparse_spec_item P SP hf n (b :: l')) as [n1 [[[item k] u]|m]]; [|reflexivity]. unfold second at 1. cbn [fst snd].
    pose proof (IH (Some k) used n1 Hv1) as J. cbn [at_place] in J. rewrite J. destruct (sparse_spec P SP hf l' (Some k) used n1) as [n2 [[[[items us] rest] u']|m]]; reflexivity.
Qed.

(** ** Loops *)
Lemma source_value_same n l l' : same l l' -> V (stoks l') -> through_source_value P SP hf n l (stoks l') = sparse_source_value P SP hf n l'.
Proof.
  intros H Hv. unfold through_source_value, sparse_source_value. cbv zeta. pose proof (fun n => expr_same n _ _ H Hv) as X. pose proof (etoks_same _ _ H) as Y. step H.
  first_tok H Hb; [rewrite X; reflexivity|]. destruct Hb as (E & _ & E2 & _). cbn [s_tok s_tuple] in *. subst b. destruct a as [? ?|? ? ?|? ?|[] g gs]; try (rewrite X; reflexivity).
  rewrite E2, Y. destruct (b2 n) as [n' [[t u]|m]]; [|rewrite X; reflexivity]. cbn [stoks map SpanParse.place s_tok open_span List.length].
  rewrite one_less. reflexivity.
Qed.
Lemma source_list_same n e b l l' : same (e :: l) (b :: l') -> V (stoks (b :: l')) ->
  through_source_list P SP hf n (e :: l) = second (fun r => match r with inl (vs, u) => inl (vs, u, l) | inr m => inr m end) (sparse_source_list P SP hf n b).
Proof.
  intros H Hv. unfold through_source_list, sparse_source_list. pose proof (etoks_same _ _ H) as Y. step H. inversion H as [|? ? ? ? Hb H']; subst. destruct e as [t|a]; [destruct Hb|].
  pose proof (proj1 Hb) as E. rewrite E. apply V_cons in Hv as [Hv _]. rewrite Y. cbv zeta. destruct (s_tok b) as [? ?|? ? ?|? ?|[] g gs] eqn:Eb; try (unfold second; cbn [fst snd stoks map]; rewrite Eb; reflexivity).
  assert (Hg : V g) by exact Hv. pose proof (terminated_same (ds_close gs) _ _ source_value_same _ _ (anns_same g Hg) None n) as T. rewrite stoks_sann in T. cbn [at_place] in T. rewrite (T Hg).
  destruct (sparse_terminated _ _ _ _ _) as [n' [vs|m]]; [|reflexivity]. unfold second. cbn [fst snd]. destruct (first_unexpected vs). reflexivity.
Qed.
Lemma loop_alias_same e b l l' : same (e :: l) (b :: l') -> through_loop_alias P (e :: l) = match sparse_loop_alias P b l' with inl al => inl (al, l) | inr m => inr m end.
Proof.
  intros H. unfold through_loop_alias, sparse_loop_alias. pose proof (etoks_same _ _ H) as Y. pose proof (ident_same call_site _ _ H) as X. step H. inversion H as [|? ? ? ? Hb H']; subst.
  destruct e as [t|a]; [destruct Hb|]. destruct Hb as (E & _ & _ & E3). rewrite Y, X, E, E3. destruct (s_tok b) as [x s|? ? ?|? ?|[] g gs]; try reflexivity.
  - destruct (ident_allowed P x); reflexivity.
  - destruct (s_pattern b); reflexivity.
Qed.
Definition loops_read (r : list sloop_item * list satok * option syn_message + messages) (x : list sloop_item * list sentry * list stt * option syn_message + messages) : Prop :=
  match r, x with
  | inl (items, l', u), inl (items', l, ts, u') => items = items' /\ u = u' /\ ts = stoks l' /\ same l l' /\ V ts
  | inr m, inr m' => m = m'
  | _, _ => False
  end.
Lemma loops_skip l l' k n : same l l' -> V (stoks l') -> k <= List.length l ->
  through_loops P SP hf l (stoks l') k n = through_loops P SP hf (skipn k l) (stoks (skipn k l')) 0 n.
Proof.
  intros H. revert k. induction H as [|e b l l' Hb H IH]; intros [|k] Hv Hk; try reflexivity.
  cbn [through_loops]. rewrite (sadvance_skipn 1 _ Hv). cbn [stoks map skipn] in *. apply V_cons in Hv as [_ Hv]. apply IH; [exact Hv|cbn in Hk; lia].
Qed.
Lemma loops_same : forall m l l' n, List.length l <= m -> same l l' -> V (stoks l') ->
  fst (through_loops P SP hf l (stoks l') 0 n) = fst (sparse_loops P SP hf l' n) /\
  loops_read (snd (sparse_loops P SP hf l' n)) (snd (through_loops P SP hf l (stoks l') 0 n)).
Proof.
  assert (Stop : forall l l' (n : N), same l l' -> V (stoks l') -> loops_read (inl ([], l', None)) (inl ([], l, stoks l', None))) by (repeat split; assumption).
  induction m as [|m IH]; intros l l' n Hm H Hv; [destruct H; [repeat split; constructor|cbn in Hm; lia]|].
  pose proof H as H1. destruct H as [|f f' r0 r0' Hb H]; [split; [reflexivity|repeat split; constructor]|]. cbn [through_loops]. unfold through_loop. step H1.
  destruct f as [t|f]; [destruct Hb|]. cbn [sparse_loops]. rewrite (proj1 Hb). destruct (is_word (txt "for") _); [|split; [reflexivity|apply Stop; assumption]].
  pose proof H as H2. destruct H as [|pat pat' r1 r1' Hp H]; [split; reflexivity|]. rewrite (loop_alias_same _ _ _ _ H2). destruct (sparse_loop_alias P pat' r1') as [al|e]; [|split; reflexivity].
  cbv zeta. pose proof H as H3. step H3. rewrite (etoks_same _ _ H3). destruct H as [|kw kw' r2 r2' Hk H]; [split; reflexivity|]. destruct kw as [t|kw]; [destruct Hk|].
  rewrite (proj1 Hk). destruct (is_word (txt "in") _); [|split; reflexivity].
  pose proof H as H4. destruct H as [|src src' r r' Hs H]; [split; reflexivity|].
  assert (Hv4 : V (stoks (src' :: r'))) by exact (V_stoks_skipn 3 _ Hv). rewrite (source_list_same n _ _ _ _ H4 Hv4).
  destruct (sparse_source_list P SP hf n src') as [n1 [[vs u]|e]]; [|split; reflexivity]. unfold second. cbn [fst snd].
  replace (pred _) with 3 by (cbn [List.length]; lia).
  rewrite (sadvance_skipn 1 _ Hv). change (skipn 1 (stoks (f' :: pat' :: kw' :: src' :: r'))) with (stoks (pat' :: kw' :: src' :: r')).
  rewrite (loops_skip _ _ 3 n1 H2 (V_stoks_skipn 1 _ Hv)) by (cbn; lia). cbn [skipn].
  assert (Hr : V (stoks r')) by exact (V_stoks_skipn 4 _ Hv). cbn in Hm. destruct (IH r r' n1 ltac:(lia) H Hr) as [J1 J2].
  destruct (through_loops P SP hf r (stoks r') 0 n1) as [n2 x], (sparse_loops P SP hf r' n1) as [n2' y]. cbn [fst snd] in *. split; [exact J1|].
  destruct y as [[[items lr] v]|e], x as [[[[items' lr'] tr] v']|e']; cbn in *; try contradiction; [|exact J2]. destruct J2 as (-> & -> & J). auto.
Qed.
Lemma spec_rest l : forall skip used n, V (stoks l) -> match snd (sparse_spec P SP hf l skip used n) with inl (_, _, rest, _) => V (stoks rest) | inr _ => True end.
Proof.
  induction l as [|t l IH]; intros skip used n Hv; [destruct skip as [[|k]|]; try exact Logic.I; reflexivity|].
  assert (Hl : V (stoks l)) by exact (V_stoks_skipn 1 _ Hv). destruct skip as [[|k]|]; cbn [sparse_spec].
  - destruct (is_separator _); [|exact Logic.I]. cbv zeta. destruct (match used with Some u => _ | None => _ end); [exact Logic.I|]. destruct (speek_ident P l); [apply IH, Hl|exact Hl].
  - apply IH, Hl.
  - destruct (sparse_spec_item P SP hf n (t :: l)) as [n1 [[[item k] u]|m]]; [|exact Logic.I].
    specialize (IH (Some k) used n1 Hl). destruct (sparse_spec P SP hf l (Some k) used n1) as [n2 [[[[items us] rest] u']|m]]; [exact IH|exact Logic.I].
Qed.
Lemma header_same n ts : V ts -> match sparse_header P SP hf n (map (sann P SP hf) ts), through_header P SP hf n ts with
  | inl (loops, spec, l, u), inl (loops', spec', ts', u') => loops = loops' /\ spec = spec' /\ u = u' /\ ts' = stoks l /\ V ts'
  | inr m, inr m' => m = m'
  | _, _ => False
  end.
Proof.
  intros H. pose proof (anns_same ts H) as A. pose proof (loops_same _ _ _ n (le_n _) A) as L. rewrite (stoks_sann ts) in L. destruct (L H) as [L1 L2]. clear L.
  unfold sparse_header, through_header. destruct (through_loops P SP hf _ _ _ _) as [n1 x], (sparse_loops P SP hf _ _) as [n1' y]. cbn [fst snd] in *. subst n1'.
  destruct y as [[[items l] u]|e], x as [[[[items' l'] ts'] u']|e']; cbn [loops_read] in L2; try contradiction; [|exact L2]. destruct L2 as (<- & <- & -> & S & Hv).
  rewrite (peek_same _ _ S). destruct (speek_ident P l); [|repeat split; auto].
  pose proof (spec_same _ _ S None None n1 Hv) as Q. cbn [at_place] in Q. rewrite Q. pose proof (spec_rest l None None n1 Hv) as T.
  destruct (sparse_spec P SP hf l None None n1) as [n2 [[[[its us] rest] u2]|e]]; [|reflexivity]. unfold second. cbn [fst snd]. repeat split; auto.
Qed.

(** ** The macros *)
Lemma finish_same sc u rest ast : V rest -> through_finish sc u rest ast = finish sc u rest ast.
Proof. intros H. unfold through_finish, finish. rewrite (left_over_visible _ H). destruct u; [reflexivity|]. destruct rest; reflexivity. Qed.
Lemma func_macro_same n ts : V ts -> through_func_macro P SP hf n ts = sparse_func_macro P SP hf n ts.
Proof.
  intros H. unfold through_func_macro, sparse_func_macro. pose proof (header_same n ts H) as G.
  destruct (sparse_header P SP hf n _) as [[[[loops spec] l] u]|e], (through_header P SP hf n ts) as [[[[loops' spec'] ts'] u']|e']; try contradiction; [|rewrite G; reflexivity].
  destruct G as (<- & <- & <- & -> & Hv). destruct (spre_block SP (stoks l)) as [[[block k] u2]|]; [|reflexivity]. cbv zeta.
  rewrite (sadvance_skipn k _ Hv). pose proof (V_skipn k _ Hv) as Hk. rewrite (snext_visible _ Hk). destruct (skipn k (stoks l)) as [|t r]; [apply finish_same; reflexivity|].
  cbn [head]. rewrite (sadvance_skipn 1 _ Hk). cbn [skipn]. pose proof Hk as Hr. apply V_cons in Hr as [_ Hr]. rewrite !finish_same by assumption. reflexivity.
Qed.
Lemma skip_same loops spec ts : V ts -> through_skip_separator loops spec ts = sskip_separator loops spec ts.
Proof.
  intros H. unfold through_skip_separator, sskip_separator. rewrite (snext_visible _ H). destruct ts as [|t r]; [reflexivity|]. cbn [head]. rewrite (sadvance_skipn 1 _ H). reflexivity.
Qed.
Lemma attr_macro_same n attr item : V attr -> V item -> through_attr_macro P SP hf n attr item = sparse_attr_macro P SP hf n attr item.
Proof.
  intros H Hi. unfold through_attr_macro, sparse_attr_macro. pose proof (header_same n attr H) as G.
  destruct (sparse_header P SP hf n _) as [[[[loops spec] l] u]|e], (through_header P SP hf n attr) as [[[[loops' spec'] ts'] u']|e']; try contradiction; [|rewrite G; reflexivity].
  destruct G as (<- & <- & <- & -> & Hv). cbv zeta. rewrite (skip_same _ _ _ Hv).
  assert (Hs : match sskip_separator loops spec (stoks l) with inl r => V r | inr _ => True end).
  { unfold sskip_separator. destruct (stoks l) as [|t r]; [reflexivity|]. destruct (is_separator _); [|exact Hv]. apply V_cons in Hv as Hr. destruct spec, loops; try exact Logic.I; try exact Hv; apply Hr. }
  destruct (sskip_separator loops spec (stoks l)) as [rest|e]; [|reflexivity]. unfold finish at 1. rewrite (left_over_visible _ Hs).
  assert (B : V [sgroup Brace call_site item]) by (apply V_cons; split; [exact Hi|reflexivity]).
  destruct u; [reflexivity|]. destruct rest; [|reflexivity]. cbn [head option_map first_some sp_ast].
  destruct (spre_block SP _) as [[[block k] u2]|]; [|reflexivity]. apply finish_same. destruct (Nat.eqb k 1); [reflexivity|exact B].
Qed.
End Parse.

Theorem through_visible : forall O SO P SP SY uses, Forall (fun u => source_visible (erase_source (su_source u)) = true) uses ->
  sexpand_uses_through O SO P SP SY uses = sexpand_uses O SO P SP SY uses.
Proof.
  intros O SO P SP SY uses H. unfold sexpand_uses_through, sexpand_uses. do 2 f_equal. apply map_ext_in. intros u Hu. rewrite Forall_forall in H. specialize (H u Hu).
  unfold sinvocation_through, sinvocation_for, sinvocation_of. f_equal. destruct (su_source u) as [ts|ts|attr item]; cbn [erase_source source_visible] in H.
  - apply func_macro_same, H.
  - apply func_macro_same, H.
  - apply andb_prop in H as [H1 H2]. apply attr_macro_same; assumption.
Qed.
