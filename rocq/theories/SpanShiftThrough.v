(** Moving spans through the parser of SpanInvisible.v. *)
From Coq Require Import String.
From Verif Require Import Base Token Types Values Ast Item Interpreter Parse SpecRepro Failures
  SpanTokens SpanWalker SpanValues SpanEval SpanItem SpanParse SpecSpanShift SpanShiftEval SpanShiftParse SpanInvisible.
From Verif Require InvisibleParse.
Open Scope list_scope.

Section Shift.
Context (g : span -> span).
Notation shift := (shift g).
Notation shift1 := (shift1 g).
Notation shift_expr := (shift_expr g).
Notation shift_messages := (shift_messages g).
Notation either := (either g).
Notation shift_unread := (shift_unread g).
Notation shift_candidate := (shift_candidate g).
Notation shift_found := (shift_found g).
Notation shift_best := (shift_best g).
Notation R := (R g).

(** ** Positions *)
Lemma advance_shift k : forall ts, sadvance k (shift ts) = shift (sadvance k ts).
Proof.
  induction k as [|k IH]; intros ts; [reflexivity|]. destruct ts as [|t ts]; [reflexivity|]. cbn [SpecSpanShift.shift map].
  destruct t as [x s|c j s|l s|d inside s]; cbn [SpecSpanShift.shift1 sadvance]; try apply IH.
  destruct d; cbn [sadvance]; try apply IH. rewrite <- IH. unfold SpecSpanShift.shift. rewrite map_app. reflexivity.
Qed.
Definition shift_ahead (x : nat * option stt) : nat * option stt := (fst x, option_map shift1 (snd x)).
Lemma next_in_shift t : snext_in (shift1 t) = shift_ahead (snext_in t).
Proof.
  induction t as [x s|c j s|l s|d ts s IH] using stt_ind'; try reflexivity. destruct d; try reflexivity. cbn [SpecSpanShift.shift1 snext_in].
  match goal with |- (let (n, o) := ?F (map shift1 ts) in _) = _ => assert (H : F (map shift1 ts) = shift_ahead (F ts)) end.
  { induction IH as [|t ts Ht _ IHl]; [reflexivity|]. cbn [map]. rewrite Ht. destruct (snext_in t) as [n [y|]]; [reflexivity|]. cbn [shift_ahead fst snd option_map].
    rewrite IHl. match goal with |- context [shift_ahead ?x] => destruct x as [m o] end. reflexivity. }
  rewrite H. match goal with |- context [shift_ahead ?x] => destruct x as [m o] end. reflexivity.
Qed.
Lemma next_shift ts : snext (shift ts) = shift_ahead (snext ts).
Proof.
  induction ts as [|t ts IH]; [reflexivity|]. cbn [SpecSpanShift.shift map snext]. rewrite next_in_shift. destruct (snext_in t) as [n [y|]]; [reflexivity|].
  cbn [shift_ahead fst snd option_map]. change (map shift1 ts) with (shift ts). rewrite IH. destruct (snext ts) as [m o]. reflexivity.
Qed.

Context (P : parsers) (SP : sparsers) (has_func : str -> bool) (C : g call_site = call_site) (MP : moves_parsers g SP).

(** ** parse/value.rs *)
Lemma through_try_shift term ts o : through_try_parse term (shift ts) (option_map shift_candidate o) = option_map shift_candidate (through_try_parse term ts o).
Proof.
  destruct o as [[[v k] u]|]; [|reflexivity]. cbn [option_map SpanShiftParse.shift_candidate through_try_parse].
  rewrite advance_shift, erase_shift. destruct (InvisibleParse.ends_at _ _); reflexivity.
Qed.
Lemma through_attempts_shift ts : through_attempts P SP (shift ts) = map (option_map shift_candidate) (through_attempts P SP ts).
Proof.
  unfold through_attempts. cbn [map]. repeat f_equal.
  - unfold slit_int_candidate. rewrite (moves_pre_lit_int _ _ MP). destruct (spre_lit_int SP ts) as [[[[d r] s] k]|]; reflexivity.
  - unfold slit_str_candidate. rewrite (moves_pre_lit_str _ _ MP). destruct (spre_lit_str SP ts) as [[[[d r] s] k]|]; reflexivity.
  - unfold through_underscore. rewrite next_shift. destruct (snext ts) as [n [t|]]; [|reflexivity]. cbn [shift_ahead fst snd option_map].
    rewrite erase_shift1, span_of_shift. destruct (_ || _); reflexivity.
  - unfold through_ident. rewrite next_shift. destruct (snext ts) as [n [[x s|c j s|l s|d ts' s]|]]; try reflexivity. cbn [shift_ahead fst snd option_map SpecSpanShift.shift1].
    destruct (ident_allowed P x); reflexivity.
  - rewrite (moves_pre_path _ _ MP). destruct (spre_path SP ts) as [[[d k] u]|]; reflexivity.
  - rewrite (moves_pre_type _ _ MP). destruct (spre_type SP ts) as [[[d k] u]|]; reflexivity.
  - rewrite (moves_pre_expr _ _ MP). destruct (spre_expr SP ts) as [[[d k] u]|]; reflexivity.
Qed.
Lemma through_attempt_shift term ts acc o :
  through_attempt term (shift ts) (on_snd (option_map shift_best) acc) (option_map shift_candidate o) =
  on_snd (option_map shift_best) (through_attempt term ts acc o).
Proof.
  destruct acc as [n best]. unfold through_attempt. cbn [on_snd fst snd]. rewrite through_try_shift.
  destruct (through_try_parse term ts o) as [[[v k] u]|]; [|reflexivity]. cbn [option_map SpanShiftParse.shift_candidate]. rewrite erase_shift.
  destruct best as [[m b]|]; [|reflexivity]. cbn [option_map SpanShiftParse.shift_best fst]. destruct (Nat.ltb _ _); reflexivity.
Qed.
Lemma through_until_shift term ts : through_until term (shift ts) = shift (through_until term ts).
Proof.
  induction ts as [|t ts IH]; [reflexivity|]. cbn [SpecSpanShift.shift map through_until].
  change (shift1 t :: map shift1 ts) with (shift (t :: ts)). rewrite next_shift. cbn [shift_ahead snd].
  replace (match option_map shift1 (snd (snext (t :: ts))) with Some x => term (erase x) | None => false end)
    with (match snd (snext (t :: ts)) with Some x => term (erase x) | None => false end)
    by (destruct (snd (snext (t :: ts))); [cbn [option_map]; rewrite erase_shift1|]; reflexivity).
  destruct (match snd (snext (t :: ts)) with Some x => _ | None => _ end); [reflexivity|]. cbn [map]. f_equal. exact IH.
Qed.
Lemma entries_shift ts : entries_of (shift ts) = entries_of ts.
Proof. unfold entries_of. rewrite erase_shift. reflexivity. Qed.
Lemma through_value_shift term n ts : through_value P SP term n (shift ts) = on_snd shift_found (through_value P SP term n ts).
Proof.
  unfold through_value. rewrite through_attempts_shift.
  assert (H : forall os acc, fold_left (through_attempt term (shift ts)) (map (option_map shift_candidate) os) (on_snd (option_map shift_best) acc) =
    on_snd (option_map shift_best) (fold_left (through_attempt term ts) os acc)).
  { induction os as [|o os IH]; intros acc; [reflexivity|]. cbn [map fold_left]. rewrite through_attempt_shift. apply IH. }
  specialize (H (through_attempts P SP ts) (n, None)). change (on_snd (option_map shift_best) (n, None)) with (n, @None (nat * (sexpr * nat * option syn_message))) in H. rewrite H. clear H.
  destruct (fold_left (through_attempt term ts) _ _) as [n' [[m r]|]]; [reflexivity|]. cbn [on_snd fst snd option_map SpanShiftParse.shift_found].
  rewrite through_until_shift, entries_shift. reflexivity.
Qed.

(** ** Entries *)
Inductive ER : sentry -> sentry -> Prop :=
| ER_open t : ER (SOpen t) (SOpen (shift1 t))
| ER_tok a a' : R a a' -> ER (STok a) (STok a').
Notation LE := (Forall2 ER).

Lemma ER_entry e e' : ER e e' -> entry_tok e' = shift1 (entry_tok e).
Proof. intros [t|a a' H]; [reflexivity|exact (R_tok g _ _ H)]. Qed.
Lemma LE_toks l l' : LE l l' -> etoks l' = shift (etoks l).
Proof. induction 1 as [|a a' l l' H _ IH]; [reflexivity|]. cbn. f_equal; [apply ER_entry, H|exact IH]. Qed.
Lemma LE_skipn k : forall l l', LE l l' -> LE (skipn k l) (skipn k l').
Proof. induction k as [|k IH]; intros l l' H; [exact H|]. inversion H; subst; [constructor|]. apply IH. assumption. Qed.
Lemma LE_firstn k : forall l l', LE l l' -> LE (firstn k l) (firstn k l').
Proof. induction k as [|k IH]; intros l l' H; [constructor|]. inversion H; subst; constructor; [assumption|]. apply IH. assumption. Qed.
Lemma LE_length l l' : LE l l' -> List.length l' = List.length l.
Proof. induction 1; cbn; congruence. Qed.
Lemma LE_seen l l' : LE l l' -> LE (sseen l) (sseen l').
Proof. induction 1 as [|a a' l l' H Hl IH]; [constructor|]. destruct H; cbn [sseen]; [exact IH|]. constructor; [constructor; assumption|exact Hl]. Qed.
Lemma LE_app a a' : LE a a' -> forall b b', LE b b' -> LE (a ++ b) (a' ++ b').
Proof. intros H b b' Hb. apply Forall2_app; assumption. Qed.

(** What is looked through to. *)
Inductive seen_rel : list sentry -> list sentry -> Prop :=
| seen_nil : seen_rel [] []
| seen_tok a a' r r' : R a a' -> LE r r' -> seen_rel (STok a :: r) (STok a' :: r').
Lemma sseen_tok l : match sseen l with SOpen _ :: _ => False | _ => True end.
Proof. induction l as [|[t|a] l IH]; cbn; auto. Qed.
Lemma LE_sees l l' : LE l l' -> seen_rel (sseen l) (sseen l').
Proof.
  intros H. assert (H1 := LE_seen _ _ H). assert (H2 := sseen_tok l). destruct H1 as [|a a' r r' [t|b b' Hb] Hr]; [constructor|contradiction|]. constructor; assumption.
Qed.

Lemma through_expected_shift x s l l' : LE l l' -> through_expected x (g s) l' = shift_message g (through_expected x s l).
Proof.
  intros H. unfold through_expected. rewrite <- message_shift. f_equal. rewrite (LE_toks _ _ H), place_shift.
  destruct (LE_sees _ _ H) as [|a a' r r' Ha Hr]; [reflexivity|]. destruct Ha as [t args args' tup tup' pat _ _]. destruct t as [? ?|c ? ?|? ?|? ? ?]; try reflexivity.
  cbn [SpecSpanShift.shift1]. destruct (N.eqb c 39); reflexivity.
Qed.
Lemma through_expected_ident_shift s l l' : LE l l' -> through_expected_ident (g s) l' = shift_message g (through_expected_ident s l).
Proof.
  intros H. unfold through_expected_ident. rewrite (LE_toks _ _ H).
  destruct (LE_sees _ _ H) as [|a a' r r' Ha Hr]; [apply error_at_shift|]. destruct Ha as [t args args' tup tup' pat _ _]. destruct t; apply error_at_shift.
Qed.

Lemma through_place_here l l' : LE l l' -> SpanParse.place call_site (etoks l') = g (SpanParse.place call_site (etoks l)).
Proof. intros H. rewrite (LE_toks _ _ H), <- place_shift, C. reflexivity. Qed.
Lemma through_call_shift n l l' : LE l l' -> through_call P has_func n l' =
  option_map (on_snd (fun x => (shift_expr (fst x), snd x))) (through_call P has_func n l).
Proof.
  intros H. unfold through_call. rewrite (through_place_here _ _ H), (LE_length _ _ H).
  destruct (LE_sees _ _ H) as [|a a' r r' Ha Hr]; [reflexivity|]. destruct Ha as [t args args' tup tup' pat _ _].
  destruct t as [x s|c j s|lt s|d ts s]; try reflexivity. cbn [SpecSpanShift.shift1]. destruct (LE_sees _ _ Hr) as [|b b' r2 r2' Hb Hr2]; [reflexivity|].
  destruct Hb as [t2 args2 args2' tup2 tup2' pat2 Hargs _]. destruct t2 as [? ?|? ? ?|? ?|[] ts s2]; try reflexivity.
  cbn [SpecSpanShift.shift1 s_args]. destruct (_ && _); [|reflexivity]. rewrite Hargs, (LE_length _ _ Hr2). destruct (args2 n) as [n1 es]. reflexivity.
Qed.
Lemma through_expr_shift n l l' ts : LE l l' -> through_expr P SP has_func n l' (shift ts) = on_snd shift_found (through_expr P SP has_func n l ts).
Proof.
  intros H. unfold through_expr. rewrite (through_call_shift n _ _ H), through_value_shift.
  destruct (through_call P has_func n l) as [[n' [e k]]|]; reflexivity.
Qed.

Definition shift_at (p : splace) : splace := match p with SSep m => SSep (shift_message g m) | _ => p end.
Section Terminated.
Context {A : Type} (f : A -> A) (scope : span) (item item' : N -> list sentry -> list stt -> N * (A * nat + messages)).
Context (Hitem : forall n l l' ts, LE l l' -> item' n l' (shift ts) = on_snd (either (shift_taken f)) (item n l ts)).
Lemma through_terminated_shift : forall l l', LE l l' -> forall ts at_ n,
  through_terminated (g scope) item' l' (shift ts) (shift_at at_) n = on_snd (either (map f)) (through_terminated scope item l ts at_ n).
Proof.
  induction 1 as [|e e' r r' He Hr IH]; intros ts at_ n; [destruct at_; reflexivity|]. cbn [through_terminated]. rewrite advance_shift.
  assert (H0 : LE (e :: r) (e' :: r')) by (constructor; assumption). rewrite (through_expected_shift _ _ _ _ H0).
  assert (S : forall m n, match e' with
      | SOpen _ => through_terminated (g scope) item' r' (shift (sadvance 1 ts)) (SSep (shift_message g m)) n
      | STok t => if is_comma (erase (s_tok t)) then through_terminated (g scope) item' r' (shift (sadvance 1 ts)) SItem n else (n, inr [shift_message g m])
      end = on_snd (either (map f)) (match e with
      | SOpen _ => through_terminated scope item r (sadvance 1 ts) (SSep m) n
      | STok t => if is_comma (erase (s_tok t)) then through_terminated scope item r (sadvance 1 ts) SItem n else (n, inr [m])
      end)).
  { intros m n0. destruct He as [t|a a' Ha]; [apply (IH _ (SSep m))|]. rewrite (R_erase _ _ _ Ha). destruct (is_comma _); [apply (IH _ SItem)|reflexivity]. }
  destruct at_ as [|[|k]|m]; cbn [shift_at].
  - rewrite (Hitem n _ _ ts H0). destruct (item n (e :: r) ts) as [n1 [[a k]|er]]; [|reflexivity]. cbn [on_snd SpanShiftParse.either shift_taken fst snd].
    destruct k as [|k'].
    + rewrite S. match goal with |- context [on_snd _ ?x] => destruct x as [n2 [l|e2]] end; reflexivity.
    + specialize (IH (sadvance 1 ts) (SSkip k') n1). cbn [shift_at] in IH. rewrite IH. destruct (through_terminated scope item r _ _ n1) as [n2 [l|e2]]; reflexivity.
  - apply S.
  - apply (IH _ (SSkip k)).
  - apply S.
Qed.
End Terminated.

Lemma left_over_shift ts : left_over (shift ts) = shift_unread (left_over ts).
Proof.
  unfold left_over. rewrite next_shift. destruct (snext ts) as [n [t|]]; [|reflexivity]. cbn [shift_ahead fst snd option_map SpanShiftParse.shift_unread].
  rewrite unexpected_shift. reflexivity.
Qed.
Lemma through_arg_shift n l l' ts : LE l l' -> through_arg P SP has_func n l' (shift ts) = on_snd (either (shift_taken shift_expr)) (through_arg P SP has_func n l ts).
Proof.
  intros H. unfold through_arg. rewrite through_until_shift, entries_shift. assert (H1 := LE_firstn (entries_of (through_until is_comma ts)) _ _ H).
  rewrite (through_expr_shift n _ _ _ H1).
  destruct (through_expr P SP has_func n _ _) as [n' [[e k] u]]. cbn [on_snd fst snd SpanShiftParse.shift_found].
  rewrite advance_shift, left_over_shift, first_some_shift. destruct (first_some _ _); reflexivity.
Qed.
Lemma through_args_shift s l l' ts n : LE l l' -> through_args P SP has_func (g s) l' (shift ts) n = on_snd (map shift_expr) (through_args P SP has_func s l ts n).
Proof.
  intros H. unfold through_args. assert (T := through_terminated_shift shift_expr s _ _ through_arg_shift _ _ H ts SItem n). cbn [shift_at] in T. rewrite T.
  destruct (through_terminated s _ l _ _ n) as [n' [a|e]]; reflexivity.
Qed.
Lemma through_tuple_value_shift n l l' ts : LE l l' -> through_tuple_value P SP has_func n l' (shift ts) =
  on_snd (either (shift_taken (shift_tv g))) (through_tuple_value P SP has_func n l ts).
Proof.
  intros H.
  assert (D : (match through_expr P SP has_func n l' (shift ts) with (n', (e, k, u)) => (n', inl (TVValue e, u, k)) end : N * (tuple_value sexpr * option syn_message * nat + messages)) =
    on_snd (either (shift_taken (shift_tv g))) (match through_expr P SP has_func n l ts with (n', (e, k, u)) => (n', inl (TVValue e, u, k)) end)).
  { rewrite (through_expr_shift n _ _ _ H). destruct (through_expr P SP has_func n l ts) as [n' [[e k] u]]. reflexivity. }
  unfold through_tuple_value. rewrite (LE_length _ _ H). destruct (LE_sees _ _ H) as [|a a' r r' Ha Hr]; [exact D|]. destruct Ha as [t args args' tup tup' pat Hargs Htup].
  destruct t as [? ?|? ? ?|? ?|[] ts0 s]; try exact D. cbn [SpecSpanShift.shift1 s_tuple]. rewrite Htup, (LE_length _ _ Hr).
  destruct (tup n) as [n' [[t u]|e]]; reflexivity.
Qed.
Lemma through_tuple_shift s l l' ts n : LE l l' -> through_tuple P SP has_func (g s) l' (shift ts) n = on_snd (either (shift_tuple g)) (through_tuple P SP has_func s l ts n).
Proof.
  intros H. unfold through_tuple. assert (T := through_terminated_shift (shift_tv g) s _ _ through_tuple_value_shift _ _ H ts SItem n). cbn [shift_at] in T. rewrite T.
  destruct (through_terminated s _ l _ _ n) as [n' [a|e]]; [|reflexivity]. unfold on_snd. cbn [SpanShiftParse.either fst snd].
  apply (f_equal (fun x => (n', inl x))). apply (first_unexpected_shift g (map_tuple_value shift_expr)).
Qed.
Lemma through_pattern_value_shift s n l l' ts : LE l l' -> through_pattern_value P (g s) n l' (shift ts) =
  on_snd (either (shift_taken (fun x => x))) (through_pattern_value P s n l ts).
Proof.
  intros H. unfold through_pattern_value. rewrite (LE_length _ _ H), (through_expected_ident_shift s _ _ H).
  destruct (LE_sees _ _ H) as [|a a' r r' Ha Hr]; [reflexivity|]. destruct Ha as [t args args' tup tup' pat Hargs Htup].
  destruct t as [x s0|? ? ?|? ?|[] ts0 s0]; cbn [SpecSpanShift.shift1 s_pattern]; try reflexivity; rewrite (LE_length _ _ Hr).
  - destruct (ident_allowed P x); reflexivity.
  - destruct pat as [p|e]; reflexivity.
Qed.
Lemma through_pattern_shift s l l' ts : LE l l' -> through_pattern P (g s) l' (shift ts) = either (fun x => x) (through_pattern P s l ts).
Proof.
  intros H. unfold through_pattern. assert (T := through_terminated_shift (fun x => x) s _ _ (through_pattern_value_shift s) _ _ H ts SItem 0%N). cbn [shift_at] in T. rewrite T.
  destruct (through_terminated s _ l _ _ 0%N) as [n' [a|e]]; [|reflexivity]. cbn. rewrite map_id. reflexivity.
Qed.
Lemma flat_LE (F : stt -> list sentry) ts : Forall (fun t => LE (F t) (F (shift1 t))) ts -> LE (flat_map F ts) (flat_map F (shift ts)).
Proof. induction 1; [constructor|]. cbn [SpecSpanShift.shift map flat_map]. apply LE_app; assumption. Qed.
Lemma through_ann_shift : forall t, LE (through_ann P SP has_func t) (through_ann P SP has_func (shift1 t)).
Proof.
  assert (One : forall t, LE [STok {| s_tok := t; s_args := fun n => (n, []); s_tuple := fun n => (n, inr []); s_pattern := inr [] |}]
    [STok {| s_tok := shift1 t; s_args := fun n => (n, []); s_tuple := fun n => (n, inr []); s_pattern := inr [] |}]).
  { intros t. constructor; [|constructor]. constructor.
    apply (R_intro g t (fun n => (n, [])) (fun n => (n, [])) (fun n => (n, inr [])) (fun n => (n, inr [])) (inr [])); reflexivity. }
  induction t as [x s|c j s|l s|d ts s IH] using stt_ind'; try apply One.
  assert (H := flat_LE _ ts IH). destruct d; try apply One; cbn [SpecSpanShift.shift1 through_ann].
  - constructor; [|constructor]. constructor. cbn [shift_delims ds_close]. change (map shift1 ts) with (shift ts). rewrite (through_pattern_shift (ds_close s) _ _ ts H).
    apply (R_intro g (SGroup Paren ts s)); intros n; [apply through_args_shift|apply through_tuple_shift]; exact H.
  - constructor; [exact (ER_open (SGroup NoDelim ts s))|exact H].
Qed.
Lemma through_anns_shift ts : LE (flat_map (through_ann P SP has_func) ts) (flat_map (through_ann P SP has_func) (shift ts)).
Proof. apply flat_LE. induction ts; constructor; [apply through_ann_shift|assumption]. Qed.

(** ** Definitions *)
Lemma through_ident_here l l' : LE l l' -> through_expected_ident call_site l' = shift_message g (through_expected_ident call_site l).
Proof. intros H. rewrite <- C at 1. apply through_expected_ident_shift, H. Qed.
Lemma through_punct_here x l l' : LE l l' -> through_expected x call_site l' = shift_message g (through_expected x call_site l).
Proof. intros H. rewrite <- C at 1. apply through_expected_shift, H. Qed.
Lemma through_error_here l l' x : LE l l' -> error_at call_site (etoks l') x = shift_message g (error_at call_site (etoks l) x).
Proof. intros H. rewrite (LE_toks _ _ H), <- error_at_shift, C. reflexivity. Qed.
Lemma through_separator_shift l l' : LE l l' -> through_expected_separator l' = shift_messages (through_expected_separator l).
Proof.
  intros H. unfold through_expected_separator. rewrite <- combine_shift, (through_place_here _ _ H), !(through_punct_here _ _ _ H). reflexivity.
Qed.
Lemma through_spec_item_shift n l l' ts : LE l l' -> through_spec_item P SP has_func n l' (shift ts) =
  on_snd (either (shift_defined g)) (through_spec_item P SP has_func n l ts).
Proof.
  intros H. unfold through_spec_item. rewrite (LE_length _ _ H), (through_ident_here _ _ H).
  destruct (LE_sees _ _ H) as [|a a' r r' Ha Hr]; [reflexivity|]. destruct Ha as [t args args' tup tup' pat _ _].
  destruct t as [x s|? ? ?|? ?|? ? ?]; try reflexivity. cbn [SpecSpanShift.shift1]. destruct (ident_allowed P x); [|reflexivity].
  rewrite (through_punct_here _ _ _ Hr). destruct (LE_sees _ _ Hr) as [|b b' r2 r2' Hb Hr2]; [reflexivity|]. rewrite (R_erase _ _ _ Hb).
  destruct (is_equals _); [|reflexivity]. rewrite (LE_length _ _ Hr2), advance_shift, (through_expr_shift n _ _ _ Hr2).
  destruct (through_expr P SP has_func n r2 _) as [n' [[e k] u]]. cbn [on_snd fst snd SpanShiftParse.shift_found]. rewrite advance_shift, erase_shift.
  destruct (InvisibleParse.ends_at _ _); [reflexivity|]. rewrite (through_separator_shift _ _ (LE_skipn k _ _ Hr2)). reflexivity.
Qed.
Lemma through_peek_shift l l' : LE l l' -> through_peek_ident P l' = through_peek_ident P l.
Proof.
  intros H. unfold through_peek_ident. destruct (LE_sees _ _ H) as [|a a' r r' Ha Hr]; [reflexivity|]. destruct Ha as [t args args' tup tup' pat _ _].
  destruct t; reflexivity.
Qed.
Definition shift_specs (x : list sitem * option bool * list stt * option syn_message) :=
  let '(items, used, rest, u) := x in (map (shift_definition g) items, used, shift rest, shift_unread u).
Lemma through_spec_shift : forall l l', LE l l' -> forall ts at_ used n,
  through_spec P SP has_func l' (shift ts) (shift_at at_) used n = on_snd (either shift_specs) (through_spec P SP has_func l ts at_ used n).
Proof.
  induction 1 as [|e e' r r' He Hr IH]; intros ts at_ used n.
  - destruct at_ as [|[|k]|m]; try reflexivity. unfold on_snd. cbn [shift_at through_spec fst snd SpanShiftParse.either SpecSpanShift.shift_messages map].
    rewrite <- (through_ident_here [] []) by constructor. reflexivity.
  - assert (H0 : LE (e :: r) (e' :: r')) by (constructor; assumption).
    assert (S : forall m m', m' = shift_message g m ->
      match e' with
      | SOpen _ => through_spec P SP has_func r' (shift (sadvance 1 ts)) (SSep m') used n
      | STok t => if is_separator (erase (s_tok t)) then
          let current := is_comma (erase (s_tok t)) in
          let mixed := match used with Some u => negb (Bool.eqb u current) | None => false end in
          if mixed then (n, inr [error_at call_site (etoks r') mixing_sep_error])
          else if through_peek_ident P r' then through_spec P SP has_func r' (shift (sadvance 1 ts)) SItem (Some current) n
          else (n, inl ([], Some current, shift (sadvance 1 ts), None))
        else (n, inr [m'])
      end = on_snd (either shift_specs) (match e with
      | SOpen _ => through_spec P SP has_func r (sadvance 1 ts) (SSep m) used n
      | STok t => if is_separator (erase (s_tok t)) then
          let current := is_comma (erase (s_tok t)) in
          let mixed := match used with Some u => negb (Bool.eqb u current) | None => false end in
          if mixed then (n, inr [error_at call_site (etoks r) mixing_sep_error])
          else if through_peek_ident P r then through_spec P SP has_func r (sadvance 1 ts) SItem (Some current) n
          else (n, inl ([], Some current, sadvance 1 ts, None))
        else (n, inr [m])
      end)).
    { intros m m' ->. destruct He as [t|a a' Ha]; [apply (IH _ (SSep m))|]. rewrite (R_erase _ _ _ Ha), (through_peek_shift _ _ Hr), (through_error_here _ _ _ Hr).
      destruct (is_separator _); [|reflexivity]. cbv zeta. destruct (match used with Some u => _ | None => _ end); [reflexivity|].
      destruct (through_peek_ident P r); [apply (IH _ SItem)|reflexivity]. }
    destruct at_ as [|[|k]|m]; cbn [shift_at].
    + cbn [through_spec]. rewrite (through_spec_item_shift n _ _ ts H0), advance_shift.
      destruct (through_spec_item P SP has_func n (e :: r) ts) as [n1 [[[item k] u]|er]]; [|reflexivity]. cbn [on_snd fst snd SpanShiftParse.either SpanShiftParse.shift_defined].
      destruct k as [|k]; [reflexivity|]. specialize (IH (sadvance 1 ts) (SSkip k) used n1). cbn [shift_at] in IH. rewrite IH.
      destruct (through_spec P SP has_func r _ _ used n1) as [n2 [[[[items used'] rest] u2]|e2]]; [|reflexivity]. cbn. rewrite first_some_shift. reflexivity.
    + cbn [through_spec]. rewrite advance_shift. specialize (S _ _ (through_error_here _ _ (txt "Expected "","" or "";""") H0)). destruct He; exact S.
    + cbn [through_spec]. rewrite advance_shift. apply (IH _ (SSkip k)).
    + cbn [through_spec]. rewrite advance_shift. specialize (S m _ eq_refl). destruct He; exact S.
Qed.

(** ** Loops *)
Definition alias_related (x x' : loop_alias * list sentry + messages) : Prop :=
  match x, x' with
  | inl (a, r), inl (a', r') => a' = a /\ LE r r'
  | inr e, inr e' => e' = shift_messages e
  | _, _ => False
  end.
Lemma through_loop_alias_shift l l' : LE l l' -> alias_related (through_loop_alias P l) (through_loop_alias P l').
Proof.
  intros H. unfold through_loop_alias. rewrite (through_ident_here _ _ H), (through_place_here _ _ H).
  destruct (LE_sees _ _ H) as [|a a' r r' Ha Hr]; [reflexivity|]. destruct Ha as [t args args' tup tup' pat _ _].
  destruct t as [x s|? ? ?|? ?|d ts s]; cbn [s_tok SpecSpanShift.shift1 s_pattern]; try reflexivity.
  - destruct (ident_allowed P x); [split; [reflexivity|exact Hr]|reflexivity].
  - destruct d; try reflexivity. destruct pat as [p|e]; [split; [reflexivity|exact Hr]|]. cbn [SpanShiftParse.either alias_related]. rewrite <- combine_shift. reflexivity.
Qed.
Lemma through_source_value_shift n l l' ts : LE l l' -> through_source_value P SP has_func n l' (shift ts) =
  on_snd (either (shift_taken (shift_sv g))) (through_source_value P SP has_func n l ts).
Proof.
  intros H.
  assert (D : forall n, (match through_expr P SP has_func n l' (shift ts) with (n', (e, k, u)) => (n', inl (SLSValue e, u, k)) end : N * (ssource_value * option syn_message * nat + messages)) =
    on_snd (either (shift_taken (shift_sv g))) (match through_expr P SP has_func n l ts with (n', (e, k, u)) => (n', inl (SLSValue e, u, k)) end)).
  { clear n. intros n. rewrite (through_expr_shift n _ _ _ H). destruct (through_expr P SP has_func n l ts) as [n' [[e k] u]]. reflexivity. }
  unfold through_source_value. rewrite (LE_length _ _ H), (through_place_here _ _ H).
  destruct (LE_sees _ _ H) as [|a a' r r' Ha Hr]; [apply D|]. destruct Ha as [t args args' tup tup' pat Hargs Htup].
  destruct t as [? ?|? ? ?|? ?|[] ts0 s]; try apply D. cbn [SpecSpanShift.shift1 s_tuple]. rewrite Htup, (LE_length _ _ Hr).
  destruct (tup n) as [n' [[t u]|e]]; [reflexivity|]. cbn [on_snd SpanShiftParse.either fst snd]. apply D.
Qed.
Definition sources_related (x x' : N * (list ssource_value * option syn_message * list sentry + messages)) : Prop :=
  match x, x' with
  | (n, inl (vals, u, r)), (n', inl (vals', u', r')) =>
      n' = n /\ vals' = map (shift_source_value g) vals /\ u' = shift_unread u /\ LE r r'
  | (n, inr e), (n', inr e') => n' = n /\ e' = shift_messages e
  | _, _ => False
  end.
Lemma through_source_list_shift n l l' : LE l l' -> sources_related (through_source_list P SP has_func n l) (through_source_list P SP has_func n l').
Proof.
  intros H. unfold through_source_list. rewrite (through_error_here _ _ _ H).
  destruct (LE_sees _ _ H) as [|a a' r r' Ha Hr]; [split; reflexivity|]. destruct Ha as [t args args' tup tup' pat _ _].
  destruct t as [? ?|? ? ?|? ?|d ts s]; cbn [s_tok SpecSpanShift.shift1]; try (split; reflexivity).
  destruct d; try (split; reflexivity). cbn [shift_delims ds_close]. change (map shift1 ts) with (shift ts).
  assert (T := through_terminated_shift (shift_sv g) (ds_close s) _ _ through_source_value_shift _ _ (through_anns_shift ts) ts SItem n). cbn [shift_at] in T. rewrite T.
  destruct (through_terminated (ds_close s) _ _ _ _ n) as [n' [vals|e]]; [|split; reflexivity]. cbn [on_snd SpanShiftParse.either fst snd].
  assert (F := first_unexpected_shift g (shift_source_value g) vals).
  change (map (fun x => (shift_source_value g (fst x), shift_unread (snd x))) vals) with (map (shift_sv g) vals) in F. rewrite F.
  destruct (first_unexpected vals) as [vs u]. cbn. repeat split. exact Hr.
Qed.
Definition shift_looped (x : sloop_item * option syn_message * nat) := let '(i, u, k) := x in (shift_loop g i, shift_unread u, k).
Lemma through_loop_shift n l l' : LE l l' -> through_loop P SP has_func n l' = on_snd (either (option_map shift_looped)) (through_loop P SP has_func n l).
Proof.
  intros H. unfold through_loop. rewrite (LE_length _ _ H). destruct (LE_sees _ _ H) as [|f f' r r' Hf Hr]; [reflexivity|]. rewrite (R_erase _ _ _ Hf).
  destruct (is_word _ _); [|reflexivity]. assert (A := through_loop_alias_shift _ _ Hr).
  destruct (through_loop_alias P r) as [[al r1]|e], (through_loop_alias P r') as [[al' r1']|e']; cbn [alias_related] in A; try contradiction; [|subst; reflexivity].
  destruct A as [-> Hr1]. unfold expected_word. rewrite (through_error_here _ _ _ Hr1).
  destruct (LE_sees _ _ Hr1) as [|kw kw' r2 r2' Hkw Hr2]; [reflexivity|]. rewrite (R_erase _ _ _ Hkw). destruct (is_word _ _); [|reflexivity].
  assert (S := through_source_list_shift n _ _ Hr2).
  destruct (through_source_list P SP has_func n r2) as [n1 [[[vals u] r3]|e]], (through_source_list P SP has_func n r2') as [n1' [[[vals' u'] r3']|e']];
    cbn [sources_related] in S; try contradiction; [|destruct S; subst; reflexivity].
  destruct S as (-> & -> & -> & Hr3). rewrite (LE_length _ _ Hr3). reflexivity.
Qed.
Definition through_loops_related (x x' : N * (list sloop_item * list sentry * list stt * option syn_message + messages)) : Prop :=
  match x, x' with
  | (n, inl (items, l, ts, u)), (n', inl (items', l', ts', u')) =>
      n' = n /\ items' = map (shift_loop g) items /\ LE l l' /\ ts' = shift ts /\ u' = shift_unread u
  | (n, inr e), (n', inr e') => n' = n /\ e' = shift_messages e
  | _, _ => False
  end.
Lemma through_loops_shift : forall l l', LE l l' -> forall ts skip n,
  through_loops_related (through_loops P SP has_func l ts skip n) (through_loops P SP has_func l' (shift ts) skip n).
Proof.
  induction 1 as [|e e' r r' He Hr IH]; intros ts skip n; [cbn; repeat split; constructor|]. cbn [through_loops]. rewrite advance_shift.
  destruct skip as [|k]; [|apply IH]. assert (H0 : LE (e :: r) (e' :: r')) by (constructor; assumption). rewrite (through_loop_shift n _ _ H0).
  destruct (through_loop P SP has_func n (e :: r)) as [n1 [[[[item u] k]|]|er]]; cbn [on_snd fst snd SpanShiftParse.either option_map shift_looped].
  - specialize (IH (sadvance 1 ts) (pred k) n1).
    destruct (through_loops P SP has_func r _ _ n1) as [n2 [[[[items l2] ts2] u2]|e2]], (through_loops P SP has_func r' _ _ n1) as [n2' [[[[items' l2'] ts2'] u2']|e2']];
      cbn [through_loops_related] in IH |- *; try contradiction; [|exact IH].
    destruct IH as (-> & -> & Hl & -> & ->). split; [reflexivity|]. split; [reflexivity|]. split; [exact Hl|]. split; [reflexivity|]. apply first_some_shift.
  - cbn [through_loops_related]. split; [reflexivity|]. split; [reflexivity|]. split; [exact H0|]. split; reflexivity.
  - split; reflexivity.
Qed.
Definition shift_header (x : option (list sloop_item) * option salias_spec * list stt * option syn_message) :=
  let '(loops, spec, rest, u) := x in (option_map (map (shift_loop g)) loops, option_map (shift_spec g) spec, shift rest, shift_unread u).
Lemma through_header_shift n ts : through_header P SP has_func n (shift ts) = either shift_header (through_header P SP has_func n ts).
Proof.
  unfold through_header. assert (H := through_loops_shift _ _ (through_anns_shift ts) ts 0 n).
  destruct (through_loops P SP has_func (flat_map _ ts) ts 0 n) as [n1 [[[[loops l1] ts1] u1]|e]],
    (through_loops P SP has_func (flat_map _ (shift ts)) (shift ts) 0 n) as [n1' [[[[loops' l1'] ts1'] u1']|e']]; cbn [through_loops_related] in H; try contradiction;
    [|destruct H; subst; reflexivity].
  destruct H as (-> & -> & Hl & -> & ->). rewrite (through_peek_shift _ _ Hl).
  assert (El : match map (shift_loop g) loops with [] => None | _ => Some (map (shift_loop g) loops) end =
    option_map (map (shift_loop g)) (match loops with [] => None | _ => Some loops end)) by (destruct loops; reflexivity).
  rewrite El. destruct (through_peek_ident P l1); [|reflexivity].
  assert (T := through_spec_shift _ _ Hl ts1 SItem None n1). cbn [shift_at] in T. rewrite T.
  destruct (through_spec P SP has_func l1 ts1 SItem None n1) as [n2 [[[[items used] ts2] u2]|e]]; [|reflexivity].
  cbn. rewrite first_some_shift. reflexivity.
Qed.

Lemma through_finish_shift sc u rest ast : through_finish sc (shift_unread u) (shift rest) (shift_ast g (shift_block g) ast) = shift_parsed g (through_finish sc u rest ast).
Proof. unfold through_finish. rewrite left_over_shift, first_some_shift. destruct (first_some _ _); reflexivity. Qed.
Lemma through_func_macro_shift n ts : through_func_macro P SP has_func n (shift ts) = shift_parsed g (through_func_macro P SP has_func n ts).
Proof.
  unfold through_func_macro. rewrite through_header_shift. destruct (through_header P SP has_func n ts) as [[[[loops spec] ts1] u1]|e]; [|reflexivity].
  cbn [SpanShiftParse.either shift_header]. rewrite (moves_pre_block _ _ MP), (moves_block_error _ _ MP).
  destruct (spre_block SP ts1) as [[[block k] u2]|]; [|reflexivity]. cbn [option_map shift_node]. rewrite semicolons_shift.
  change (option_map (shift_message g) u2) with (shift_unread u2). rewrite first_some_shift.
  set (ast := {| sa_loops := loops; sa_spec := spec; sa_block := block |}).
  change {| sa_loops := option_map (map (shift_loop g)) loops; sa_spec := option_map (shift_spec g) spec; sa_block := shift_block g block |} with (shift_ast g (shift_block g) ast).
  rewrite advance_shift, next_shift. destruct (snext (sadvance k ts1)) as [i [t|]]; cbn [shift_ahead fst snd option_map]; [|apply (through_finish_shift _ _ [])].
  rewrite erase_shift1.
  assert (Em : strailing_mixed (shift1 t) (option_map (shift_spec g) spec) = strailing_mixed t spec)
    by (destruct spec; cbn; rewrite ?erase_shift1; reflexivity).
  rewrite Em, advance_shift. destruct (is_separator _); [|apply through_finish_shift].
  destruct (strailing_mixed t spec); [|apply through_finish_shift]. unfold ssyntax_error, shift_parsed. cbn [sp_scope sp_ast SpanShiftParse.either]. rewrite error_here by exact C. reflexivity.
Qed.
Lemma through_skip_separator_shift loops spec ts : through_skip_separator (option_map (map (shift_loop g)) loops) (option_map (shift_spec g) spec) (shift ts) =
  either shift (through_skip_separator loops spec ts).
Proof.
  unfold through_skip_separator. rewrite next_shift. destruct (snext ts) as [i [t|]]; [|reflexivity]. cbn [shift_ahead fst snd option_map]. rewrite erase_shift1, advance_shift.
  destruct (is_separator _); [|reflexivity]. destruct spec; [reflexivity|]. destruct loops; [|reflexivity]. cbn [option_map SpanShiftParse.either]. rewrite <- error_here by exact C. reflexivity.
Qed.
Lemma through_attr_macro_shift n attr item :
  through_attr_macro P SP has_func n (shift attr) (shift item) = shift_parsed g (through_attr_macro P SP has_func n attr item).
Proof.
  unfold through_attr_macro. rewrite through_header_shift. destruct (through_header P SP has_func n attr) as [[[[loops spec] ts1] u1]|e]; [|reflexivity].
  cbn [SpanShiftParse.either shift_header]. rewrite through_skip_separator_shift, semicolons_shift.
  destruct (through_skip_separator loops spec ts1) as [rest|e]; [|reflexivity]. cbn [SpanShiftParse.either].
  set (b := [SpanItem.sgroup Brace call_site item]).
  assert (Eb : [SpanItem.sgroup Brace call_site (shift item)] = shift b).
  { unfold b, SpanItem.sgroup. cbn [SpecSpanShift.shift map SpecSpanShift.shift1]. rewrite shift_single, C. reflexivity. }
  rewrite Eb, left_over_shift, first_some_shift. destruct (first_some u1 (left_over rest)); [reflexivity|]. cbn [SpanShiftParse.shift_unread option_map].
  rewrite (moves_pre_block _ _ MP), (moves_block_error _ _ MP). destruct (spre_block SP b) as [[[block k] u2]|]; [|reflexivity]. cbn [option_map shift_node].
  replace (if Nat.eqb k 1 then [] else shift b) with (shift (if Nat.eqb k 1 then [] else b)) by (destruct (Nat.eqb k 1); reflexivity).
  apply (through_finish_shift _ u2 _ {| sa_loops := loops; sa_spec := spec; sa_block := block |}).
Qed.
End Shift.
