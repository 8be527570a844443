(** Parsing input with invisible groups does not depend on spans. *)
From Coq Require Import String.
From Verif Require Import Base BaseFacts Token Types Values Ast Item Interpreter Parse SpecRepro Failures
  SpanTokens SpanWalker SpanValues SpanEval SpanItem SpanParse SpanMacro SpecSpanItem SpecSpanMacro SpanParseProofs SpanInvisible InvisibleParse.
Open Scope list_scope.

Lemma sadvance_erase k : forall ts, map erase (sadvance k ts) = advance k (map erase ts).
Proof.
  induction k as [|k IH]; intros ts; [destruct ts; reflexivity|].
  destruct ts as [|[x s|c j s|l s|d g s] ts]; try reflexivity; try apply IH. destruct d; try apply IH. cbn. rewrite IH, map_app. reflexivity.
Qed.
Lemma snext_in_erase t : next_in (erase t) = second (option_map erase) (snext_in t).
Proof.
  induction t as [x s|c j s|l s|d ts s IH] using stt_ind'; try reflexivity. destruct d; try reflexivity.
  assert (E : (fix go (l : list tt) : nat * option tt :=
       match l with
       | [] => (0, None)
       | x :: r => match next_in x with (n, Some y) => (n, Some y) | (n, None) => let (m, o) := go r in (n + m, o) end
       end) (map erase ts) = second (option_map erase) ((fix go (l : list stt) : nat * option stt :=
                       match l with
                       | [] => (0, None)
                       | x :: r => match snext_in x with
                                   | (n, Some y) => (n, Some y)
                                   | (n, None) => let (m, o) := go r in (n + m, o)
                                   end
                       end) ts)).
  { clear s. induction IH as [|t ts Ht _ IH]; [reflexivity|]. cbn [map]. rewrite Ht. destruct (snext_in t) as [n [y|]]; [reflexivity|].
    unfold second at 1. cbn [fst snd option_map]. rewrite IH. unfold second. match goal with |- context [let (_, _) := ?x in _] => destruct x end. reflexivity. }
  cbn [erase next_in snext_in]. rewrite E. unfold second. match goal with |- context [let (_, _) := ?x in _] => destruct x end. reflexivity.
Qed.
Lemma snext_erase ts : next (map erase ts) = second (option_map erase) (snext ts).
Proof.
  induction ts as [|t ts IH]; [reflexivity|]. cbn [map next snext]. rewrite snext_in_erase. destruct (snext_in t) as [n [y|]]; [reflexivity|].
  unfold second at 1. cbn [fst snd option_map]. rewrite IH. unfold second. destruct (snext ts) as [m o]. reflexivity.
Qed.
Lemma exhausted_erase ts : exhausted (map erase ts) = negb (is_some (left_over ts)).
Proof. unfold exhausted, left_over. rewrite snext_erase. destruct (snext ts) as [n [y|]]; reflexivity. Qed.
Lemma through_until_erase term ts : map erase (through_until term ts) = until term (map erase ts).
Proof.
  induction ts as [|t ts IH]; [reflexivity|]. cbn [through_until map until]. change (erase t :: map erase ts) with (map erase (t :: ts)).
  rewrite snext_erase. destruct (snext (t :: ts)) as [n [y|]]; cbn [second fst snd option_map map].
  - destruct (term (erase y)); [reflexivity|]. cbn. rewrite IH. reflexivity.
  - rewrite IH. reflexivity.
Qed.

Section Parse.
Context (P : parsers) (SP : sparsers) (hf : str -> bool) (HS : spanless_parsers P SP).

Lemma through_try_erase term ts o : option_map er_c (through_try_parse term ts o) = try_parse term (map erase ts) (option_map er_c o).
Proof. destruct o as [[[v k] u]|]; [|reflexivity]. cbn. rewrite sadvance_erase. destruct (ends_at term _); reflexivity. Qed.
Lemma through_attempts_erase ts : map (option_map er_c) (through_attempts P SP ts) = attempts P (map erase ts).
Proof.
  unfold through_attempts, attempts. cbn [map].
  rewrite (node_candidate_erase SVPath VPath), (node_candidate_erase SVType VType), (node_candidate_erase SVExpr VExpr) by reflexivity.
  rewrite (spanless_pre_path _ _ HS), (spanless_pre_type _ _ HS), (spanless_pre_expr _ _ HS).
  f_equal; [|f_equal; [|f_equal; [|f_equal]]].
  - unfold lit_int_candidate, slit_int_candidate. rewrite <- (spanless_pre_lit_int _ _ HS). destruct (spre_lit_int SP ts) as [[[[d r] s] k]|]; reflexivity.
  - unfold lit_str_candidate, slit_str_candidate. rewrite <- (spanless_pre_lit_str _ _ HS). destruct (spre_lit_str SP ts) as [[[[d r] s] k]|]; reflexivity.
  - unfold underscore_candidate, through_underscore. rewrite snext_erase. destruct (snext ts) as [n [t|]]; [|reflexivity]. cbn. destruct (_ || _); reflexivity.
  - unfold ident_candidate, through_ident. rewrite snext_erase. destruct (snext ts) as [n [[x s|c j s|l s|d l s]|]]; try reflexivity. cbn. destruct (ident_allowed P x); reflexivity.
Qed.
Lemma through_attempt_erase term ts acc o :
  attempt term (map erase ts) (second (option_map er_best) acc) (option_map er_c o) = second (option_map er_best) (through_attempt term ts acc o).
Proof.
  destruct acc as [n best]. unfold attempt, through_attempt, second at 1. cbn [fst snd]. rewrite <- through_try_erase.
  destruct (through_try_parse term ts o) as [[[v k] u]|]; [|reflexivity]. cbn [option_map er_c].
  destruct best as [[m [[e j] w]]|]; [|reflexivity]. cbn [option_map er_best fst snd]. destruct (Nat.ltb m _); reflexivity.
Qed.
Lemma through_value_erase term n ts : parse_value P term n (map erase ts) = second er_e (through_value P SP term n ts).
Proof.
  unfold parse_value, through_value. rewrite <- through_attempts_erase.
  assert (H : forall l acc, fold_left (attempt term (map erase ts)) (map (option_map er_c) l) (second (option_map er_best) acc) =
    second (option_map er_best) (fold_left (through_attempt term ts) l acc)).
  { induction l as [|o l IH]; intros acc; [reflexivity|]. cbn [map fold_left]. rewrite through_attempt_erase. apply IH. }
  change (n, @None (nat * (expr * nat * bool))) with (second (option_map er_best) (n, None)). rewrite H.
  destruct (fold_left (through_attempt term ts) _ _) as [n' [[m r]|]]; [reflexivity|]. unfold second. cbn [fst snd option_map er_e].
  unfold entries_of. rewrite through_until_erase. cbn [erase_expr erase_value]. rewrite through_until_erase. reflexivity.
Qed.

(** ** Recursion *)
Inductive esim : sentry -> entry -> Prop :=
| esim_open t : esim (SOpen t) Open
| esim_tok s a : sim s a -> esim (STok s) (Tok a).
Notation esims := (Forall2 esim).
Lemma seen_sim l l' : esims l l' -> esims (sseen l) (seen l').
Proof. induction 1 as [|? ? l l' H Hl IH]; [constructor|]. destruct H; [exact IH|]. constructor; [constructor; assumption|exact Hl]. Qed.
Lemma esim_length l l' : esims l l' -> List.length l' = List.length l.
Proof. induction 1; cbn; congruence. Qed.
Lemma esim_skipn k l l' : esims l l' -> esims (skipn k l) (skipn k l').
Proof. intros H. revert k. induction H; intros [|k]; cbn; auto. Qed.
Lemma esim_firstn k l l' : esims l l' -> esims (firstn k l) (firstn k l').
Proof. intros H. revert k. induction H; intros [|k]; cbn; auto. Qed.

(** What is seen ahead: nothing, or tokens that are alike. *)
Ltac seen_cases l l' H st g1 g2 g3 h1 h2 h3 G1 G2 G3 r r' Hr :=
  let X := fresh "X" in let Ht := fresh "Ht" in let s := fresh "s" in let a := fresh "a" in let at_ := fresh "at_" in
  assert (X := seen_sim l l' H);
  destruct X as [|? ? r r' X Hr];
  [|destruct X as [?|s a X];
     [|destruct s as [st g1 g2 g3], a as [at_ h1 h2 h3]; destruct X as (Ht & G1 & G2 & G3);
       cbn [a_tok s_tok a_args s_args a_tuple s_tuple a_pattern s_pattern] in Ht, G1, G2, G3; subst at_]].

Lemma through_call_erase n l l' : esims l l' ->
  parse_call P hf n l' = option_map (second (fun x => (erase_expr (fst x), snd x))) (through_call P hf n l).
Proof.
  intros H. unfold parse_call, through_call. rewrite (esim_length _ _ H).
  seen_cases l l' H st g1 g2 g3 h1 h2 h3 G1 G2 G3 r r' Hr; [reflexivity|reflexivity|]. destruct st as [x s|c j s|l0 s|d g s]; try reflexivity.
  cbn [erase]. seen_cases r r' Hr st k1 k2 k3 m1 m2 m3 K1 K2 K3 r2 r2' Hr2; [reflexivity|reflexivity|].
  destruct st as [x2 s2|c j s2|l0 s2|d g s2]; try reflexivity. destruct d; try reflexivity.
  cbn [erase a_args s_args]. destruct (ident_allowed P x && hf x); [|reflexivity]. rewrite K1. unfold second. rewrite (esim_length _ _ Hr2).
  destruct (k1 n) as [n1 args]. reflexivity.
Qed.
Lemma through_expr_erase n l l' ts : esims l l' -> parse_expr P hf n l' (map erase ts) = second er_e (through_expr P SP hf n l ts).
Proof.
  intros H. unfold parse_expr, through_expr. rewrite (through_call_erase _ _ _ H). destruct (through_call P hf n l) as [[n' [e k]]|]; [reflexivity|].
  apply through_value_erase.
Qed.

Definition er_place (p : splace) : InvisibleParse.place := match p with SItem => Item | SSkip k => Skip k | SSep _ => Sep end.
Section Terminated.
Context {A B : Type} (f : A -> B) (scope : span) (item : N -> list sentry -> list stt -> N * (A * nat + messages))
  (item' : N -> list entry -> list tt -> N * option (B * nat)).
Context (Hitem : forall n l l' ts, esims l l' -> item' n l' (map erase ts) = second (forget_sum (fun x => (f (fst x), snd x))) (item n l ts)).
Lemma through_terminated_erase l l' : esims l l' -> forall ts at_ n,
  parse_terminated item' l' (map erase ts) (er_place at_) n = second (forget_sum (map f)) (through_terminated scope item l ts at_ n).
Proof.
  induction 1 as [|s a l l' Hs Hl IH]; intros ts at_ n; [destruct at_; reflexivity|]. cbn [parse_terminated through_terminated].
  rewrite <- sadvance_erase.
  assert (Sep : forall m n, match a with
      | Open => parse_terminated item' l' (map erase (sadvance 1 ts)) Sep n
      | Tok t => if is_comma (a_tok t) then parse_terminated item' l' (map erase (sadvance 1 ts)) Item n else (n, None)
      end = second (forget_sum (map f)) (match s with
      | SOpen _ => through_terminated scope item l (sadvance 1 ts) (SSep m) n
      | STok t => if is_comma (erase (s_tok t)) then through_terminated scope item l (sadvance 1 ts) SItem n else (n, inr [m])
      end)).
  { clear n. intros m n. destruct Hs as [t|s a Hs]; [apply (IH _ (SSep m))|]. rewrite (proj1 Hs). destruct (is_comma _); [apply (IH _ SItem)|reflexivity]. }
  destruct at_ as [|[|k]|m]; cbn [er_place]; [|apply Sep|apply (IH _ (SSkip k))|apply Sep].
  rewrite (Hitem n (s :: l) (a :: l') ts) by (constructor; assumption). unfold second at 1. destruct (item n (s :: l) ts) as [n1 [[x k]|e]]; [|reflexivity].
  cbn [fst snd forget_sum]. destruct k as [|k].
  - rewrite (Sep (through_expected "," scope (s :: l))). unfold second. match goal with |- context [let (_, _) := ?x in _] => destruct x as [n2 [r|e]] end; reflexivity.
  - rewrite (IH _ (SSkip k)). unfold second. destruct (through_terminated scope item l _ (SSkip k) n1) as [n2 [r|e]]; reflexivity.
Qed.
End Terminated.

Lemma through_arg_erase n l l' ts : esims l l' ->
  parse_arg P hf n l' (map erase ts) = second (forget_sum (fun x => (erase_expr (fst x), snd x))) (through_arg P SP hf n l ts).
Proof.
  intros H. unfold parse_arg, through_arg. rewrite <- through_until_erase. fold (entries_of (through_until is_comma ts)).
  rewrite (through_expr_erase _ _ _ _ (esim_firstn _ _ _ H)). unfold second at 1.
  destruct (through_expr P SP hf n _ _) as [n' [[e k] u]]. cbn [fst snd er_e]. rewrite <- sadvance_erase, exhausted_erase.
  unfold second. cbn [fst snd]. destruct u, (left_over _); reflexivity.
Qed.
Lemma through_args_erase scope l l' ts n : esims l l' ->
  parse_args P hf l' (map erase ts) n = second (map erase_expr) (through_args P SP hf scope l ts n).
Proof.
  intros H. unfold parse_args, through_args. rewrite (through_terminated_erase erase_expr scope (through_arg P SP hf) _ through_arg_erase _ _ H ts SItem). unfold second.
  destruct (through_terminated scope (through_arg P SP hf) l ts SItem n) as [n' [args|e]]; reflexivity.
Qed.
Lemma through_tuple_value_erase n l l' ts : esims l l' ->
  parse_tuple_value P hf n l' (map erase ts) = second (forget_sum (fun x => (er_tv (fst x), snd x))) (through_tuple_value P SP hf n l ts).
Proof.
  intros H. assert (E : match parse_expr P hf n l' (map erase ts) with (n', (e, k, u)) => (n', Some (TVValue e, u, k)) end =
    second (forget_sum (fun x => (er_tv (fst x), snd x))) (match through_expr P SP hf n l ts with (n', (e, k, u)) => (n', inl (TVValue e, u, k)) end)).
  { rewrite (through_expr_erase _ _ _ _ H). unfold second. destruct (through_expr P SP hf n l ts) as [n' [[e k] u]]. reflexivity. }
  unfold parse_tuple_value, through_tuple_value. rewrite (esim_length _ _ H).
  seen_cases l l' H st g1 g2 g3 h1 h2 h3 G1 G2 G3 r r' Hr; [exact E|exact E|]. destruct st as [x s|c j s|l0 s|d g s]; try exact E. destruct d; try exact E.
  cbn [erase a_tuple s_tuple]. rewrite G2, (esim_length _ _ Hr). unfold second. destruct (g2 n) as [n' [[t u]|e]]; reflexivity.
Qed.
Lemma through_tuple_erase scope l l' ts n : esims l l' ->
  parse_tuple P hf l' (map erase ts) n = second (forget_sum er_t) (through_tuple P SP hf scope l ts n).
Proof.
  intros H. unfold parse_tuple, through_tuple.
  rewrite (through_terminated_erase er_tv scope (through_tuple_value P SP hf) _ through_tuple_value_erase _ _ H ts SItem). unfold second.
  destruct (through_terminated scope (through_tuple_value P SP hf) l ts SItem n) as [n' [r|e]]; [|reflexivity].
  cbn [fst snd forget_sum option_map]. unfold er_tv. rewrite (unexpected_erase (map_tuple_value erase_expr) r). reflexivity.
Qed.
Lemma through_pattern_value_erase scope n l l' ts : esims l l' ->
  parse_pattern_value P n l' (map erase ts) = second (forget_sum (fun x => (fst x, snd x))) (through_pattern_value P scope n l ts).
Proof.
  intros H. unfold parse_pattern_value, through_pattern_value. rewrite (esim_length _ _ H).
  seen_cases l l' H st g1 g2 g3 h1 h2 h3 G1 G2 G3 r r' Hr; [reflexivity|reflexivity|]. rewrite (esim_length _ _ Hr). destruct st as [x s|c j s|l0 s|d g s]; try reflexivity.
  - cbn. destruct (ident_allowed P x); reflexivity.
  - destruct d; try reflexivity. cbn [erase a_pattern s_pattern]. rewrite G3. unfold second. destruct g3; reflexivity.
Qed.
Lemma through_pattern_erase scope l l' ts : esims l l' -> parse_pattern P l' (map erase ts) = forget_sum (fun t => t) (through_pattern P scope l ts).
Proof.
  intros H. unfold parse_pattern, through_pattern.
  rewrite (through_terminated_erase (fun x => x) scope (through_pattern_value P scope) _ (through_pattern_value_erase scope) _ _ H ts SItem). unfold second. cbn [snd].
  destruct (snd (through_terminated scope (through_pattern_value P scope) l ts SItem 0%N)); [|reflexivity]. cbn. rewrite map_id. reflexivity.
Qed.
Lemma through_ann_sim t : esims (through_ann P SP hf t) (ann P hf (erase t)).
Proof.
  assert (D : forall t, esims [STok {| s_tok := t; s_args := fun n => (n, []); s_tuple := fun n => (n, inr []); s_pattern := inr [] |}]
                            [Tok {| a_tok := erase t; a_args := fun n => (n, []); a_tuple := fun n => (n, None); a_pattern := None |}])
    by (intros; constructor; [constructor; repeat split|constructor]).
  induction t as [x s|c j s|l s|d ts s IH] using stt_ind'; try apply D.
  assert (H : esims (flat_map (through_ann P SP hf) ts) (flat_map (ann P hf) (map erase ts))).
  { clear -IH. induction IH as [|t ts Ht _ IH]; [constructor|]. cbn [map flat_map]. apply Forall2_app; assumption. }
  destruct d; try apply D.
  - cbn [erase through_ann ann]. constructor; [|constructor]. constructor. split; [reflexivity|].
    split; [intros n; apply through_args_erase, H|]. split; [intros n; apply through_tuple_erase, H|apply through_pattern_erase, H].
  - cbn [erase through_ann ann]. constructor; [constructor|exact H].
Qed.
Lemma through_anns_sim ts : esims (flat_map (through_ann P SP hf) ts) (flat_map (ann P hf) (map erase ts)).
Proof. induction ts as [|t ts IH]; [constructor|]. cbn [map flat_map]. apply Forall2_app; [apply through_ann_sim|exact IH]. Qed.

(** ** Definitions *)
Lemma through_spec_item_erase n l l' ts : esims l l' ->
  parse_spec_item P hf n l' (map erase ts) = second (forget_sum (fun '(i, k, u) => (er_item i, k, is_some u))) (through_spec_item P SP hf n l ts).
Proof.
  intros H. unfold parse_spec_item, through_spec_item. rewrite (esim_length _ _ H).
  seen_cases l l' H st g1 g2 g3 h1 h2 h3 G1 G2 G3 r r' Hr; [reflexivity|reflexivity|]. destruct st as [x s|c j s|l0 s|d g s]; try reflexivity.
  cbn [erase]. destruct (ident_allowed P x); cycle 1.
  { destruct (seen r') as [|[|[]] ?]; reflexivity. }
  cbn [andb].
  seen_cases r r' Hr st k1 k2 k3 m1 m2 m3 K1 K2 K3 r2 r2' Hr2; [reflexivity|reflexivity|]. cbn [a_tok s_tok].
  destruct (is_equals (erase st)); [|reflexivity]. rewrite (esim_length _ _ Hr2), <- sadvance_erase, (through_expr_erase _ _ _ _ Hr2). unfold second at 1.
  destruct (through_expr P SP hf n r2 _) as [n' [[e k] u]]. cbn [fst snd er_e]. rewrite <- sadvance_erase. unfold second. cbn [fst snd].
  destruct (ends_at is_separator _); reflexivity.
Qed.
Lemma through_peek_erase l l' : esims l l' -> peek_ident P l' = through_peek_ident P l.
Proof.
  intros H. unfold peek_ident, through_peek_ident. seen_cases l l' H st g1 g2 g3 h1 h2 h3 G1 G2 G3 r r' Hr; [reflexivity|reflexivity|]. destruct st; reflexivity.
Qed.
Definition er_spec (x : list sitem * option bool * list stt * option syn_message) : list spec_item * option bool * list tt * bool :=
  let '(items, used, ts, u) := x in (map er_item items, used, map erase ts, is_some u).
Lemma through_spec_erase l l' : esims l l' -> forall ts at_ used n,
  parse_spec P hf l' (map erase ts) (er_place at_) used n = second (forget_sum er_spec) (through_spec P SP hf l ts at_ used n).
Proof.
  induction 1 as [|s a l l' Hs Hl IH]; intros ts at_ used n; [destruct at_ as [|[|k]|m]; reflexivity|]. cbn [parse_spec through_spec]. rewrite <- sadvance_erase.
  assert (Sep : forall t u m, sim t u -> (if is_separator (a_tok u)
      then if match used with Some u0 => negb (Bool.eqb u0 (is_comma (a_tok u))) | None => false end then (n, None)
           else if peek_ident P l' then parse_spec P hf l' (map erase (sadvance 1 ts)) Item (Some (is_comma (a_tok u))) n
           else (n, Some ([], Some (is_comma (a_tok u)), map erase (sadvance 1 ts), false))
      else (n, None)) = second (forget_sum er_spec) (if is_separator (erase (s_tok t))
      then if match used with Some u0 => negb (Bool.eqb u0 (is_comma (erase (s_tok t)))) | None => false end
           then (n, inr [error_at call_site (etoks l) mixing_sep_error])
           else if through_peek_ident P l then through_spec P SP hf l (sadvance 1 ts) SItem (Some (is_comma (erase (s_tok t)))) n
           else (n, inl ([], Some (is_comma (erase (s_tok t))), sadvance 1 ts, None))
      else (n, inr m))).
  { intros t u m Htu. rewrite (proj1 Htu). destruct (is_separator _); [|reflexivity].
    destruct (match used with Some u0 => _ | None => _ end); [reflexivity|]. rewrite (through_peek_erase _ _ Hl).
    destruct (through_peek_ident P l); [apply (IH _ SItem)|reflexivity]. }
  destruct at_ as [|[|k]|m]; cbn [er_place].
  - rewrite (through_spec_item_erase n (s :: l) (a :: l') ts) by (constructor; assumption). unfold second.
    destruct (through_spec_item P SP hf n (s :: l) ts) as [n1 [[[item [|k]] u]|e]]; [reflexivity| |reflexivity]. cbn [fst snd forget_sum].
    rewrite (IH _ (SSkip k)). unfold second. destruct (through_spec P SP hf l (sadvance 1 ts) (SSkip k) used n1) as [n2 [[[[items us] rest] v]|e]]; [|reflexivity].
    cbn. rewrite is_some_first. reflexivity.
  - destruct Hs as [t|t u Htu]; [apply (IH _ (SSep _))|apply Sep, Htu].
  - apply (IH _ (SSkip k)).
  - destruct Hs as [t|t u Htu]; [apply (IH _ (SSep m))|apply Sep, Htu].
Qed.

(** ** Loops *)
Lemma through_source_value_erase n l l' ts : esims l l' ->
  parse_source_value P hf n l' (map erase ts) = second (forget_sum (fun x => (er_sv (fst x), snd x))) (through_source_value P SP hf n l ts).
Proof.
  intros H. assert (E : forall n, match parse_expr P hf n l' (map erase ts) with (n', (e, k, u)) => (n', Some (LSValue e, u, k)) end =
    second (forget_sum (fun x => (er_sv (fst x), snd x))) (match through_expr P SP hf n l ts with (n', (e, k, u)) => (n', inl (SLSValue e, u, k)) end)).
  { clear n. intros n. rewrite (through_expr_erase _ _ _ _ H). unfold second. destruct (through_expr P SP hf n l ts) as [n' [[e k] u]]. reflexivity. }
  unfold parse_source_value, through_source_value. rewrite (esim_length _ _ H).
  seen_cases l l' H st g1 g2 g3 h1 h2 h3 G1 G2 G3 r r' Hr; [apply E|apply E|]. destruct st as [x s|c j s|l0 s|d g s]; try apply E. destruct d; try apply E.
  cbn [erase a_tuple s_tuple]. rewrite G2, (esim_length _ _ Hr). unfold second at 1. destruct (g2 n) as [n' [[t u]|e]]; [reflexivity|]. cbn [fst snd forget_sum]. apply E.
Qed.

Definition er_loop (x : sloop_item * option syn_message * nat) : loop_item * bool * nat :=
  let '(i, u, k) := x in (plain_loop i, is_some u, k).
Lemma through_source_list_erase n s a : sim s a -> parse_source_list P hf n a = second (forget_sum er_svs)
  (match s_tok s with
   | SGroup Bracket ts d =>
       match through_terminated (ds_close d) (through_source_value P SP hf) (flat_map (through_ann P SP hf) ts) ts SItem n with
       | (n', inl vals) => (n', inl (first_unexpected vals))
       | (n', inr e) => (n', inr e)
       end
   | _ => (n, inr [])
   end).
Proof.
  intros (H & _). unfold parse_source_list. rewrite H. destruct (s_tok s) as [x s'|c j s'|l0 s'|d g s']; try reflexivity. cbn [erase].
  destruct d; try reflexivity.
  rewrite (through_terminated_erase er_sv (ds_close s') (through_source_value P SP hf) _ through_source_value_erase _ _ (through_anns_sim g) g SItem). unfold second.
  destruct (through_terminated (ds_close s') (through_source_value P SP hf) _ _ SItem n) as [n' [r|e]]; [|reflexivity].
  cbn [fst snd forget_sum option_map]. unfold er_sv. rewrite (unexpected_erase plain_source r). reflexivity.
Qed.
Lemma through_loop_erase n l l' : esims l l' ->
  parse_loop P hf n l' = second (forget_sum (option_map er_loop)) (through_loop P SP hf n l).
Proof.
  intros H. unfold parse_loop, through_loop. rewrite (esim_length _ _ H).
  assert (Hs := seen_sim _ _ H). destruct Hs as [|? ? r r' Hf Hr]; [reflexivity|]. destruct Hf as [|f f' Hf]; [reflexivity|]. rewrite (proj1 Hf).
  destruct (is_word _ _); [|reflexivity]. unfold through_loop_alias.
  assert (Hs := seen_sim _ _ Hr). destruct Hs as [|? ? r1 r1' Hp Hr1]; [reflexivity|]. destruct Hp as [|p p' Hp]; [reflexivity|].
  assert (E : parse_loop_alias P p' = forget_sum fst (match s_tok p with
      | SIdent x _ => if ident_allowed P x then inl (LASimple x, r1) else inr [through_expected_ident call_site r]
      | SGroup Paren _ _ => match s_pattern p with
          | inl q => inl (LATuple q, r1)
          | inr e => inr (combine_errors "Failed to parse loop alias (see errors below)" (SpanParse.place call_site (etoks r)) [e; [through_expected_ident call_site r]])
          end
      | _ => inr [through_expected_ident call_site r]
      end)).
  { destruct Hp as (Hp & _ & _ & Hq). unfold parse_loop_alias. rewrite Hp. destruct (s_tok p) as [x s'|c j s'|l0 s'|d g s']; try reflexivity; cbn [erase].
    - destruct (ident_allowed P x); reflexivity.
    - destruct d; try reflexivity. rewrite Hq. destruct (s_pattern p); reflexivity. }
  rewrite E. clear E.
  match goal with |- context [forget_sum fst ?x] => assert (R : forall al q, x = inl (al, q) -> q = r1) end.
  { intros al q. destruct (s_tok p) as [x s'|c j s'|l0 s'|d g s']; try discriminate; [destruct (ident_allowed P x)|destruct d; [destruct (s_pattern p)| | |]]; try discriminate; injection 1; auto. }
  match goal with |- context [forget_sum fst ?x] => destruct x as [[al q]|e] end.
  2:{ cbn [forget_sum]. destruct (seen r1') as [|[|?] ?]; try reflexivity. destruct (seen _) as [|[|?] ?]; reflexivity. }
  specialize (R al q eq_refl). subst q. cbn [forget_sum fst].
  assert (Hs := seen_sim _ _ Hr1). destruct Hs as [|? ? r2 r2' Hk Hr2]; [reflexivity|]. destruct Hk as [|k k' Hk]; [reflexivity|]. rewrite (proj1 Hk).
  unfold through_source_list.
  assert (Hs := seen_sim _ _ Hr2). destruct Hs as [|? ? r3 r3' Hl Hr3]; [destruct (is_word _ _); reflexivity|]. destruct Hl as [|b b' Hb]; [destruct (is_word _ _); reflexivity|].
  destruct (is_word _ _); [|reflexivity]. rewrite (through_source_list_erase n _ _ Hb), (esim_length _ _ Hr3).
  destruct (s_tok b) as [x s'|c j s'|l0 s'|d g s']; try reflexivity. destruct d; try reflexivity. unfold second.
  destruct (through_terminated (ds_close s') (through_source_value P SP hf) _ _ SItem n) as [n' [vs|e]]; reflexivity.
Qed.

Definition rel_through (o : option (list loop_item * list entry * list tt * bool)) (r : list sloop_item * list sentry * list stt * option syn_message + messages) : Prop :=
  match o, r with
  | Some (items, rest, ts, u), inl (items', rest', ts', u') => items = map plain_loop items' /\ esims rest' rest /\ ts = map erase ts' /\ u = is_some u'
  | None, inr _ => True
  | _, _ => False
  end.
Lemma through_loops_erase l l' : esims l l' -> forall ts skip n,
  fst (parse_loops P hf l' (map erase ts) skip n) = fst (through_loops P SP hf l ts skip n) /\ rel_through (snd (parse_loops P hf l' (map erase ts) skip n)) (snd (through_loops P SP hf l ts skip n)).
Proof.
  induction 1 as [|s a l l' Hs Hl IH]; intros ts skip n; [destruct skip; repeat split; constructor|]. cbn [parse_loops through_loops]. rewrite <- sadvance_erase.
  destruct skip as [|k]; [|apply IH]. rewrite (through_loop_erase n (s :: l) (a :: l')) by (constructor; assumption). unfold second.
  destruct (through_loop P SP hf n (s :: l)) as [n1 [[[[item u] k]|]|e]]; cbn [fst snd forget_sum option_map er_loop].
  - destruct (IH (sadvance 1 ts) (pred k) n1) as (E & R).
    destruct (parse_loops P hf l' _ _ _) as [n2 o], (through_loops P SP hf l _ _ _) as [n2' r]. cbn [fst snd] in E, R |- *. split; [exact E|].
    destruct o as [[[[items rest] ts2] v]|], r as [[[[items' rest'] ts2'] v']|e]; try contradiction; [|exact I].
    destruct R as (-> & Hrest & -> & ->). cbn. rewrite is_some_first. repeat split. exact Hrest.
  - repeat split. constructor; assumption.
  - split; [reflexivity|exact I].
Qed.

Definition er_header (x : option (list sloop_item) * option salias_spec * list stt * option syn_message) : option (list loop_item) * option alias_spec * list tt * bool :=
  let '(loops, spec, ts, u) := x in (option_map (map plain_loop) loops, option_map plain_spec spec, map erase ts, is_some u).
Lemma through_header_erase n ts : parse_header P hf n (map erase ts) = forget_sum er_header (through_header P SP hf n ts).
Proof.
  unfold parse_header, through_header. destruct (through_loops_erase _ _ (through_anns_sim ts) ts 0 n) as (Hn & Hr).
  destruct (parse_loops P hf _ _ 0 n) as [n1 o], (through_loops P SP hf _ _ 0 n) as [n1' r]. cbn [fst snd] in Hn, Hr. subst n1'.
  destruct o as [[[[items rest] ts1] v]|], r as [[[[items' rest'] ts1'] v']|e]; try contradiction; [|reflexivity]. destruct Hr as (-> & Hrest & -> & ->).
  assert (E : match map plain_loop items' with [] => None | _ :: _ => Some (map plain_loop items') end =
    option_map (map plain_loop) (match items' with [] => None | _ :: _ => Some items' end)) by (destruct items'; reflexivity).
  rewrite (through_peek_erase _ _ Hrest), E. destruct (through_peek_ident P rest'); [|reflexivity].
  rewrite (through_spec_erase _ _ Hrest ts1' SItem). unfold second. cbn [snd].
  destruct (snd (through_spec P SP hf rest' ts1' SItem None n1)) as [[[[its us] r2] w]|e]; [|reflexivity]. cbn. rewrite is_some_first. reflexivity.
Qed.

Lemma through_finish_erase sc u rest ast : plain_parsed (through_finish sc u rest ast) =
  {| p_scope := sc; p_ast := Ok (if exhausted (map erase rest) then if is_some u then None else Some (plain_ast (map erase_stmt) ast) else None) |}.
Proof. unfold through_finish. rewrite exhausted_erase. destruct u, (left_over rest); reflexivity. Qed.

Lemma through_func_erase n ts : plain_parsed (through_func_macro P SP hf n ts) = parse_func_macro P hf n (map erase ts).
Proof.
  unfold through_func_macro, parse_func_macro. rewrite through_header_erase.
  destruct (through_header P SP hf n ts) as [[[[lo sp] ts1] u1]|e]; [|reflexivity]. cbn [forget_sum er_header].
  rewrite <- (spanless_pre_block _ _ HS), uses_semicolons_erase. destruct (spre_block SP ts1) as [[[block k] u2]|]; [|reflexivity]. cbn [option_map erase_node].
  rewrite <- sadvance_erase, snext_erase. destruct (snext (sadvance k ts1)) as [i [t|]] eqn:En; cbn [second fst snd option_map].
  - replace (trailing_mixed (erase t) (option_map plain_spec sp)) with (strailing_mixed t sp) by (destruct sp; reflexivity).
    destruct (is_separator (erase t)).
    + cbn [andb]. destruct (strailing_mixed t sp); [reflexivity|]. cbn [negb]. rewrite <- sadvance_erase, through_finish_erase, is_some_first.
      destruct (exhausted _); reflexivity.
    + rewrite through_finish_erase. unfold exhausted. rewrite snext_erase, En. reflexivity.
  - rewrite through_finish_erase, is_some_first. reflexivity.
Qed.
Lemma through_attr_erase n attr item :
  plain_parsed (through_attr_macro P SP hf n attr item) = parse_attr_macro P hf n (map erase attr) (map erase item).
Proof.
  unfold through_attr_macro, parse_attr_macro. rewrite through_header_erase.
  destruct (through_header P SP hf n attr) as [[[[lo sp] ts1] u1]|e]; [|reflexivity]. cbn [forget_sum er_header]. rewrite uses_semicolons_erase.
  assert (E : skip_separator (option_map (map plain_loop) lo) (option_map plain_spec sp) (map erase ts1) = forget_sum (map erase) (through_skip_separator lo sp ts1)).
  { unfold skip_separator, through_skip_separator. rewrite snext_erase. destruct (snext ts1) as [i [t|]]; [|reflexivity]. cbn [second fst snd option_map].
    destruct (is_separator (erase t)); [|reflexivity]. destruct sp, lo; cbn [option_map forget_sum]; try rewrite sadvance_erase; reflexivity. }
  rewrite E. destruct (through_skip_separator lo sp ts1) as [rest|e]; [|reflexivity]. cbn [forget_sum]. rewrite exhausted_erase.
  destruct u1 as [m|]; [destruct (left_over rest); reflexivity|]. destruct (left_over rest); [reflexivity|]. cbn [negb orb first_some is_some].
  change [TGroup Brace (map erase item)] with (map erase [sgroup Brace call_site item]). rewrite <- (spanless_pre_block _ _ HS).
  destruct (spre_block SP [sgroup Brace call_site item]) as [[[block k] u2]|]; [|reflexivity]. cbn [option_map erase_node]. rewrite through_finish_erase.
  destruct k as [|[|k]]; [reflexivity| |reflexivity]. destruct u2; reflexivity.
Qed.
End Parse.
