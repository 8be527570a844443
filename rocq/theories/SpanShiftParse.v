(** Moving spans through the parser. *)
From Coq Require Import String.
From Verif Require Import Base Token Types Values Ast Item Interpreter Parse SpecRepro Failures
  SpanTokens SpanWalker SpanValues SpanEval SpanItem SpanParse SpecSpanShift SpanShiftEval.
Open Scope list_scope.

Section Shift.
Context (g : span -> span).
Notation shift := (shift g).
Notation shift1 := (shift1 g).
Notation shift_expr := (shift_expr g).
Notation shift_messages := (shift_messages g).

(** What a parser yields, moved. *)
Definition on_snd {A B C} (f : B -> C) (x : A * B) : A * C := (fst x, f (snd x)).
Definition either {A B} (f : A -> B) (x : A + messages) : B + messages :=
  match x with inl a => inl (f a) | inr e => inr (shift_messages e) end.
Definition shift_unread (u : option syn_message) := option_map (shift_message g) u.
Definition shift_taken {A B} (f : A -> B) (x : A * nat) : B * nat := (f (fst x), snd x).
Definition shift_candidate (x : scandidate) : scandidate := let '(v, k, u) := x in (shift_value g v, k, shift_unread u).
Definition shift_found (x : sexpr * nat * option syn_message) := let '(e, k, u) := x in (shift_expr e, k, shift_unread u).
Definition shift_tuple (x : tuple sexpr * option syn_message) := (map_tuple shift_expr (fst x), shift_unread (snd x)).
Definition shift_source_value (v : ssource_value) : ssource_value :=
  match v with SLSValue e => SLSValue (shift_expr e) | SLSTuple s t => SLSTuple (g s) (map_tuple shift_expr t) end.
Definition shift_loop (l : sloop_item) : sloop_item := {| sl_pattern := sl_pattern l; sl_values := map shift_source_value (sl_values l) |}.
Definition shift_spec (s : salias_spec) : salias_spec := {| ss_items := map (shift_definition g) (ss_items s); ss_comma := ss_comma s |}.
Definition shift_ast {B} (f : B -> B) (a : sraw_ast B) : sraw_ast B :=
  {| sa_loops := option_map (map shift_loop) (sa_loops a); sa_spec := option_map shift_spec (sa_spec a); sa_block := f (sa_block a) |}.
Definition shift_parsed (p : sparsed) : sparsed := {| sp_scope := sp_scope p; sp_ast := either (shift_ast (shift_block g)) (sp_ast p) |}.

(** ** Places and messages *)
Lemma open_span_shift t : open_span (shift1 t) = g (open_span t).
Proof. destruct t; reflexivity. Qed.
Lemma place_shift s ts : place (g s) (shift ts) = g (place s ts).
Proof. destruct ts; [reflexivity|apply open_span_shift]. Qed.
Lemma message_shift s x : new_message (g s) x = shift_message g (new_message s x).
Proof. reflexivity. Qed.
Lemma error_at_shift s ts x : error_at (g s) (shift ts) x = shift_message g (error_at s ts x).
Proof. unfold error_at. rewrite place_shift, message_shift. destruct ts; reflexivity. Qed.
Lemma expected_punct_shift x s ts : expected_punct x (g s) (shift ts) = shift_message g (expected_punct x s ts).
Proof. unfold expected_punct. rewrite place_shift. reflexivity. Qed.
Lemma expected_ident_shift s ts : expected_ident (g s) (shift ts) = shift_message g (expected_ident s ts).
Proof.
  unfold expected_ident. destruct ts as [|[x s0|c j s0|l s0|d ts' s0] r]; try exact (error_at_shift s [] _);
    try exact (error_at_shift s (SIdent x s0 :: r) _); try exact (error_at_shift s (SPunct c j s0 :: r) _);
    try exact (error_at_shift s (SLit l s0 :: r) _); exact (error_at_shift s (SGroup d ts' s0 :: r) _).
Qed.
Lemma unexpected_shift t : unexpected_token (shift1 t) = shift_message g (unexpected_token t).
Proof. unfold unexpected_token. rewrite span_of_shift. reflexivity. Qed.
Lemma combine_shift x s es : combine_errors x (g s) (map shift_messages es) = shift_messages (combine_errors x s es).
Proof.
  destruct es as [|a [|b es]]; [reflexivity|reflexivity|].
  change (new_message (g s) (txt x) :: List.concat (map shift_messages (a :: b :: es)) =
    shift_message g (new_message s (txt x)) :: map (shift_message g) (List.concat (a :: b :: es))).
  rewrite concat_map. reflexivity.
Qed.
Lemma first_some_shift a b : first_some (shift_unread a) (shift_unread b) = shift_unread (first_some a b).
Proof. destruct a; reflexivity. Qed.

Context (P : parsers) (SP : sparsers) (has_func : str -> bool) (C : g call_site = call_site) (MP : moves_parsers g SP).

(** ** parse/value.rs *)
Lemma try_shift term ts o : stry_parse term (shift ts) (option_map shift_candidate o) = option_map shift_candidate (stry_parse term ts o).
Proof.
  destruct o as [[[v k] u]|]; [|reflexivity]. cbn [option_map shift_candidate stry_parse].
  unfold SpecSpanShift.shift. rewrite skipn_map. change (map shift1 (skipn k ts)) with (shift (skipn k ts)). rewrite erase_shift.
  destruct (ends _ _); reflexivity.
Qed.
Lemma attempts_shift ts : sattempts P SP (shift ts) = map (option_map shift_candidate) (sattempts P SP ts).
Proof.
  unfold sattempts. cbn [map]. repeat f_equal.
  - unfold slit_int_candidate. rewrite (moves_pre_lit_int _ _ MP). destruct (spre_lit_int SP ts) as [[[[d r] s] k]|]; reflexivity.
  - unfold slit_str_candidate. rewrite (moves_pre_lit_str _ _ MP). destruct (spre_lit_str SP ts) as [[[[d r] s] k]|]; reflexivity.
  - unfold sunderscore_candidate. destruct ts as [|t ts]; [reflexivity|]. cbn [SpecSpanShift.shift map]. rewrite erase_shift1, span_of_shift.
    destruct (_ || _); reflexivity.
  - unfold sident_candidate. destruct ts as [|[x s|c j s|l s|d ts' s] ts]; try reflexivity. cbn [SpecSpanShift.shift map SpecSpanShift.shift1].
    destruct (ident_allowed P x); reflexivity.
  - rewrite (moves_pre_path _ _ MP). destruct (spre_path SP ts) as [[[d k] u]|]; reflexivity.
  - rewrite (moves_pre_type _ _ MP). destruct (spre_type SP ts) as [[[d k] u]|]; reflexivity.
  - rewrite (moves_pre_expr _ _ MP). destruct (spre_expr SP ts) as [[[d k] u]|]; reflexivity.
Qed.
Definition shift_best (b : nat * (sexpr * nat * option syn_message)) := (fst b, shift_found (snd b)).
Lemma attempt_shift term ts acc o :
  sattempt term (shift ts) (on_snd (option_map shift_best) acc) (option_map shift_candidate o) =
  on_snd (option_map shift_best) (sattempt term ts acc o).
Proof.
  destruct acc as [n best]. unfold sattempt. cbn [on_snd fst snd]. rewrite try_shift.
  destruct (stry_parse term ts o) as [[[v k] u]|]; [|reflexivity]. cbn [option_map shift_candidate]. rewrite erase_shift.
  destruct best as [[m b]|]; [|reflexivity]. cbn [option_map shift_best fst]. destruct (Nat.ltb _ _); reflexivity.
Qed.
Lemma until_shift term ts : suntil term (shift ts) = shift (suntil term ts).
Proof.
  induction ts as [|t ts IH]; [reflexivity|]. cbn [SpecSpanShift.shift map suntil]. rewrite erase_shift1. destruct (term _); [reflexivity|].
  cbn [map]. f_equal. exact IH.
Qed.
Lemma value_shift term n ts : sparse_value P SP term n (shift ts) = on_snd shift_found (sparse_value P SP term n ts).
Proof.
  unfold sparse_value. rewrite attempts_shift.
  assert (H : forall os acc, fold_left (sattempt term (shift ts)) (map (option_map shift_candidate) os) (on_snd (option_map shift_best) acc) =
    on_snd (option_map shift_best) (fold_left (sattempt term ts) os acc)).
  { induction os as [|o os IH]; intros acc; [reflexivity|]. cbn [map fold_left]. rewrite attempt_shift. apply IH. }
  specialize (H (sattempts P SP ts) (n, None)). change (on_snd (option_map shift_best) (n, None)) with (n, @None (nat * (sexpr * nat * option syn_message))) in H. rewrite H. clear H.
  destruct (fold_left (sattempt term ts) _ _) as [n' [[m r]|]]; [reflexivity|]. cbn [on_snd fst snd option_map shift_found]. rewrite until_shift, shift_length. reflexivity.
Qed.

(** ** Tokens with what their inside parses to *)
Inductive R : satok -> satok -> Prop :=
| R_intro t args args' tup tup' pat :
    (forall n, args' n = on_snd (map shift_expr) (args n)) -> (forall n, tup' n = on_snd (either shift_tuple) (tup n)) ->
    R {| s_tok := t; s_args := args; s_tuple := tup; s_pattern := pat |}
      {| s_tok := shift1 t; s_args := args'; s_tuple := tup'; s_pattern := either (fun x => x) pat |}.
Notation LR := (Forall2 R).

Lemma R_tok a a' : R a a' -> s_tok a' = shift1 (s_tok a).
Proof. intros []. reflexivity. Qed.
Lemma R_erase a a' : R a a' -> erase (s_tok a') = erase (s_tok a).
Proof. intros H. rewrite (R_tok _ _ H). apply erase_shift1. Qed.
Lemma LR_toks l l' : LR l l' -> stoks l' = shift (stoks l).
Proof. induction 1 as [|a a' l l' H _ IH]; [reflexivity|]. cbn. f_equal; [apply R_tok, H|exact IH]. Qed.
Lemma LR_skipn k : forall l l', LR l l' -> LR (skipn k l) (skipn k l').
Proof. induction k as [|k IH]; intros l l' H; [exact H|]. inversion H; subst; [constructor|]. apply IH. assumption. Qed.
Lemma LR_until term l l' : LR l l' -> LR (sauntil term l) (sauntil term l').
Proof. induction 1 as [|a a' l l' H _ IH]; [constructor|]. cbn. rewrite (R_erase _ _ H). destruct (term _); constructor; assumption. Qed.
Lemma LR_length l l' : LR l l' -> List.length l' = List.length l.
Proof. induction 1; cbn; congruence. Qed.

Lemma call_shift n l l' : LR l l' -> sparse_call P has_func n l' =
  option_map (on_snd (fun x => (shift_expr (fst x), snd x))) (sparse_call P has_func n l).
Proof.
  intros H. destruct H as [|a a' l l' Ha H]; [reflexivity|]. destruct Ha as [t args args' tup tup' pat _ _].
  destruct t as [x s|c j s|lt s|d ts s]; try reflexivity. destruct H as [|b b' l l' Hb H]; [reflexivity|].
  destruct Hb as [t2 args2 args2' tup2 tup2' pat2 Hargs _]. destruct t2 as [? ?|? ? ?|? ?|[] ts s2]; try reflexivity.
  cbn [sparse_call SpecSpanShift.shift1 s_args]. destruct (_ && _); [|reflexivity]. rewrite Hargs. destruct (args2 n) as [n1 es]. reflexivity.
Qed.
Lemma expr_shift n l l' : LR l l' -> sparse_expr_ P SP has_func n l' = on_snd shift_found (sparse_expr_ P SP has_func n l).
Proof.
  intros H. unfold sparse_expr_. rewrite (call_shift n _ _ H), (LR_toks _ _ H), value_shift.
  destruct (sparse_call P has_func n l) as [[n' [e k]]|]; reflexivity.
Qed.

Section Terminated.
Context {A : Type} (f : A -> A) (scope : span) (item item' : N -> list satok -> N * (A * nat + messages)).
Context (Hitem : forall n l l', LR l l' -> item' n l' = on_snd (either (shift_taken f)) (item n l)).
Lemma terminated_shift : forall l l', LR l l' -> forall skip n,
  sparse_terminated (g scope) item' l' skip n = on_snd (either (map f)) (sparse_terminated scope item l skip n).
Proof.
  induction 1 as [|t t' r r' Ht Hr IH]; intros skip n; [reflexivity|]. cbn [sparse_terminated]. rewrite (R_erase _ _ Ht).
  assert (E : [expected_punct "," (g scope) (stoks (t' :: r'))] = shift_messages [expected_punct "," scope (stoks (t :: r))]).
  { cbn [SpecSpanShift.shift_messages map]. rewrite <- expected_punct_shift. do 2 f_equal. apply LR_toks. constructor; assumption. }
  destruct skip as [[|k]|].
  - destruct (is_comma _); [apply IH|]. rewrite E. reflexivity.
  - apply IH.
  - rewrite (Hitem n (t :: r) (t' :: r')) by (constructor; assumption). destruct (item n (t :: r)) as [n1 [[a k]|e]]; [|reflexivity].
    cbn [on_snd either shift_taken fst snd]. destruct k as [|k'].
    + destruct (is_comma _); [|rewrite E; reflexivity]. rewrite IH. destruct (sparse_terminated scope item r None n1) as [n2 [l|e]]; reflexivity.
    + rewrite IH. destruct (sparse_terminated scope item r (Some k') n1) as [n2 [l|e]]; reflexivity.
Qed.
End Terminated.

Lemma arg_shift n l l' : LR l l' -> sparse_arg P SP has_func n l' = on_snd (either (shift_taken shift_expr)) (sparse_arg P SP has_func n l).
Proof.
  intros H. assert (H1 := LR_until is_comma _ _ H). unfold sparse_arg. rewrite (expr_shift n _ _ H1), (LR_toks _ _ H1), (LR_length _ _ H1).
  destruct (sparse_expr_ P SP has_func n (sauntil is_comma l)) as [n' [[e k] u]]. cbn [on_snd fst snd shift_found].
  unfold SpecSpanShift.shift. rewrite skipn_map. destruct u as [m|]; [reflexivity|]. cbn [shift_unread option_map].
  destruct (skipn k _) as [|t r]; [reflexivity|]. cbn [map]. rewrite unexpected_shift. reflexivity.
Qed.
Lemma args_shift s l l' n : LR l l' -> sparse_args P SP has_func (g s) l' n = on_snd (map shift_expr) (sparse_args P SP has_func s l n).
Proof.
  intros H. unfold sparse_args. rewrite (terminated_shift shift_expr s _ _ arg_shift _ _ H).
  destruct (sparse_terminated s _ l None n) as [n' [a|e]]; reflexivity.
Qed.
Lemma first_unexpected_shift {A} (f : A -> A) (l : list (A * option syn_message)) :
  first_unexpected (map (fun x => (f (fst x), shift_unread (snd x))) l) = (map f (fst (first_unexpected l)), shift_unread (snd (first_unexpected l))).
Proof.
  unfold first_unexpected. cbn [fst snd]. rewrite !map_map. f_equal. induction l as [|[a u] l IH]; [reflexivity|].
  cbn [map fold_right snd]. rewrite IH. apply first_some_shift.
Qed.
Definition shift_tv (x : tuple_value sexpr * option syn_message) := (map_tuple_value shift_expr (fst x), shift_unread (snd x)).
Lemma tuple_value_shift n l l' : LR l l' -> sparse_tuple_value P SP has_func n l' =
  on_snd (either (shift_taken shift_tv)) (sparse_tuple_value P SP has_func n l).
Proof.
  intros H.
  assert (D : (match sparse_expr_ P SP has_func n l' with (n', (e, k, u)) => (n', inl (TVValue e, u, k)) end : N * (tuple_value sexpr * option syn_message * nat + messages)) =
    on_snd (either (shift_taken shift_tv)) (match sparse_expr_ P SP has_func n l with (n', (e, k, u)) => (n', inl (TVValue e, u, k)) end)).
  { rewrite (expr_shift n _ _ H). destruct (sparse_expr_ P SP has_func n l) as [n' [[e k] u]]. reflexivity. }
  destruct H as [|a a' r r' Ha Hr]; [exact D|]. destruct Ha as [t args args' tup tup' pat Hargs Htup].
  destruct t as [? ?|? ? ?|? ?|[] ts s]; try exact D. cbn [sparse_tuple_value SpecSpanShift.shift1 s_tuple]. rewrite Htup.
  destruct (tup n) as [n' [[t u]|e]]; reflexivity.
Qed.
Lemma tuple_shift s l l' n : LR l l' -> sparse_tuple P SP has_func (g s) l' n = on_snd (either shift_tuple) (sparse_tuple P SP has_func s l n).
Proof.
  intros H. unfold sparse_tuple. rewrite (terminated_shift shift_tv s _ _ tuple_value_shift _ _ H).
  destruct (sparse_terminated s _ l None n) as [n' [a|e]]; [|reflexivity]. unfold on_snd. cbn [either fst snd].
  apply (f_equal (fun x => (n', inl x))). apply (first_unexpected_shift (map_tuple_value shift_expr)).
Qed.
Lemma pattern_value_shift s n l l' : LR l l' -> sparse_pattern_value P (g s) n l' =
  on_snd (either (shift_taken (fun x => x))) (sparse_pattern_value P s n l).
Proof.
  intros H.
  assert (D : [expected_ident (g s) (stoks l')] = shift_messages [expected_ident s (stoks l)]).
  { rewrite (LR_toks _ _ H), expected_ident_shift. reflexivity. }
  destruct H as [|a a' r r' Ha Hr]; [cbn [sparse_pattern_value]; rewrite D; reflexivity|]. destruct Ha as [t args args' tup tup' pat Hargs Htup].
  destruct t as [x s0|? ? ?|? ?|[] ts s0]; cbn [sparse_pattern_value SpecSpanShift.shift1 s_tok s_pattern] in D |- *; try (unfold on_snd; cbn [fst snd either]; rewrite <- D; reflexivity).
  - destruct (ident_allowed P x); [reflexivity|]. unfold on_snd; cbn [fst snd either]. rewrite <- D. reflexivity.
  - destruct pat as [p|e]; reflexivity.
Qed.
Lemma pattern_shift s l l' : LR l l' -> sparse_pattern P (g s) l' = either (fun x => x) (sparse_pattern P s l).
Proof.
  intros H. unfold sparse_pattern. rewrite (terminated_shift (fun x => x) s _ _ (pattern_value_shift s) _ _ H).
  destruct (sparse_terminated s _ l None 0%N) as [n' [a|e]]; [|reflexivity]. cbn. rewrite map_id. reflexivity.
Qed.
Lemma ann_shift : forall t, R (sann P SP has_func t) (sann P SP has_func (shift1 t)).
Proof.
  induction t as [x s|c j s|l s|d ts s IH] using stt_ind';
    try (match goal with |- R (sann _ _ _ ?t) _ => apply (R_intro t (fun n => (n, [])) (fun n => (n, [])) (fun n => (n, inr [])) (fun n => (n, inr [])) (inr [])) end; reflexivity).
  destruct d; try (match goal with |- R (sann _ _ _ ?t) _ => apply (R_intro t (fun n => (n, [])) (fun n => (n, [])) (fun n => (n, inr [])) (fun n => (n, inr [])) (inr [])) end; reflexivity).
  assert (H : LR (map (sann P SP has_func) ts) (map (sann P SP has_func) (map shift1 ts))) by (induction IH; constructor; assumption).
  cbn [SpecSpanShift.shift1 sann]. cbn [shift_delims ds_close]. rewrite (pattern_shift (ds_close s) _ _ H).
  apply (R_intro (SGroup Paren ts s)); intros n; [apply args_shift|apply tuple_shift]; exact H.
Qed.
Lemma anns_shift ts : LR (map (sann P SP has_func) ts) (map (sann P SP has_func) (shift ts)).
Proof. induction ts as [|t ts IH]; constructor; [apply ann_shift|exact IH]. Qed.

(** ** Definitions *)
Lemma separator_shift ts : expected_separator (shift ts) = shift_messages (expected_separator ts).
Proof.
  unfold expected_separator. rewrite <- combine_shift. rewrite <- place_shift, C. f_equal. cbn [map SpecSpanShift.shift_messages].
  rewrite <- !expected_punct_shift, C. reflexivity.
Qed.
Lemma ident_here ts : [expected_ident call_site (shift ts)] = shift_messages [expected_ident call_site ts].
Proof. cbn [SpecSpanShift.shift_messages map]. rewrite <- expected_ident_shift, C. reflexivity. Qed.
Lemma punct_here x ts : [expected_punct x call_site (shift ts)] = shift_messages [expected_punct x call_site ts].
Proof. cbn [SpecSpanShift.shift_messages map]. rewrite <- expected_punct_shift, C. reflexivity. Qed.
Lemma error_here ts x : [error_at call_site (shift ts) x] = shift_messages [error_at call_site ts x].
Proof. cbn [SpecSpanShift.shift_messages map]. rewrite <- error_at_shift, C. reflexivity. Qed.

Definition shift_defined (x : sitem * nat * option syn_message) := let '(i, k, u) := x in (shift_definition g i, k, shift_unread u).
Lemma spec_item_shift n l l' : LR l l' -> sparse_spec_item P SP has_func n l' = on_snd (either shift_defined) (sparse_spec_item P SP has_func n l).
Proof.
  intros H. assert (E := LR_toks _ _ H). unfold sparse_spec_item.
  destruct H as [|a a' r r' Ha Hr]; [unfold on_snd; cbn [fst snd either]; rewrite <- ident_here; reflexivity|].
  assert (D : [expected_ident call_site (stoks (a' :: r'))] = shift_messages [expected_ident call_site (stoks (a :: r))]) by (rewrite E; apply ident_here).
  destruct Ha as [t args args' tup tup' pat _ _]. destruct t as [x s|? ? ?|? ?|? ? ?]; cbn [SpecSpanShift.shift1] in D |- *; try (rewrite D; reflexivity).
  destruct (ident_allowed P x); [|rewrite D; reflexivity]. destruct Hr as [|b b' r r' Hb Hr].
  - unfold on_snd; cbn [fst snd either]. rewrite <- punct_here. reflexivity.
  - rewrite (R_erase _ _ Hb). destruct (is_equals _).
    + rewrite (expr_shift n _ _ Hr). destruct (sparse_expr_ P SP has_func n r) as [n' [[e k] u]]. cbn [on_snd fst snd shift_found].
      rewrite (LR_toks _ _ (LR_skipn k _ _ Hr)), erase_shift. destruct (ends _ _); [reflexivity|]. rewrite separator_shift. reflexivity.
    + assert (D2 : [expected_punct "=" call_site (stoks (b' :: r'))] = shift_messages [expected_punct "=" call_site (stoks (b :: r))])
        by (rewrite (LR_toks (b :: r) (b' :: r')) by (constructor; assumption); apply punct_here).
      rewrite D2. reflexivity.
Qed.
Lemma peek_shift l l' : LR l l' -> speek_ident P l' = speek_ident P l.
Proof. intros [|a a' r r' [t args args' tup tup' pat _ _] _]; [reflexivity|]. destruct t; reflexivity. Qed.

Definition spec_related (x x' : N * (list sitem * option bool * list satok * option syn_message + messages)) : Prop :=
  match x, x' with
  | (n, inl (items, used, rest, u)), (n', inl (items', used', rest', u')) =>
      n' = n /\ items' = map (shift_definition g) items /\ used' = used /\ LR rest rest' /\ u' = shift_unread u
  | (n, inr e), (n', inr e') => n' = n /\ e' = shift_messages e
  | _, _ => False
  end.
Lemma spec_shift : forall l l', LR l l' -> forall skip used n, spec_related (sparse_spec P SP has_func l skip used n) (sparse_spec P SP has_func l' skip used n).
Proof.
  induction 1 as [|t t' r r' Ht Hr IH]; intros skip used n.
  - destruct skip as [[|k]|]; [cbn; repeat split; constructor|cbn; repeat split; constructor|].
    split; [reflexivity|]. exact (ident_here []).
  - cbn [sparse_spec]. rewrite (R_erase _ _ Ht). destruct skip as [[|k]|].
    + destruct (is_separator _).
      * rewrite (peek_shift _ _ Hr), (LR_toks _ _ Hr), error_here.
        destruct (match used with Some u => _ | None => _ end); [split; reflexivity|].
        destruct (speek_ident P r); [apply IH|]. repeat split; try reflexivity. exact Hr.
      * rewrite (LR_toks (t :: r) (t' :: r')) by (constructor; assumption). rewrite error_here. split; reflexivity.
    + apply IH.
    + rewrite (spec_item_shift n (t :: r) (t' :: r')) by (constructor; assumption).
      destruct (sparse_spec_item P SP has_func n (t :: r)) as [n1 [[[item k] u]|e]]; [|split; reflexivity]. cbn [on_snd fst snd either shift_defined].
      specialize (IH (Some k) used n1). destruct (sparse_spec P SP has_func r (Some k) used n1) as [n2 [[[[items used'] rest] u2]|e]],
        (sparse_spec P SP has_func r' (Some k) used n1) as [n2' [[[[items' used''] rest'] u2']|e']]; cbn in IH |- *; try contradiction; [|exact IH].
      destruct IH as (-> & -> & -> & Hrest & ->). repeat split; try assumption; try reflexivity. rewrite <- first_some_shift. reflexivity.
Qed.

(** ** Loops *)
Lemma loop_alias_shift t t' r r' : R t t' -> LR r r' -> sparse_loop_alias P t' r' = either (fun x => x) (sparse_loop_alias P t r).
Proof.
  intros Ht Hr. assert (E : stoks (t' :: r') = shift (stoks (t :: r))) by (apply LR_toks; constructor; assumption).
  assert (D : [expected_ident call_site (stoks (t' :: r'))] = shift_messages [expected_ident call_site (stoks (t :: r))]) by (rewrite E; apply ident_here).
  unfold sparse_loop_alias. destruct Ht as [tok args args' tup tup' pat _ _].
  destruct tok as [x s|? ? ?|? ?|d ts s]; cbn [s_tok SpecSpanShift.shift1 s_pattern] in *; try (rewrite D; reflexivity).
  - destruct (ident_allowed P x); [reflexivity|]. rewrite D. reflexivity.
  - destruct d; try (rewrite D; reflexivity). destruct pat as [p|e]; [reflexivity|]. cbn [either] in *. rewrite D, E. f_equal.
    rewrite <- combine_shift, <- place_shift, C. reflexivity.
Qed.
Definition shift_sv (x : ssource_value * option syn_message) := (shift_source_value (fst x), shift_unread (snd x)).
Lemma source_value_shift n l l' : LR l l' -> sparse_source_value P SP has_func n l' =
  on_snd (either (shift_taken shift_sv)) (sparse_source_value P SP has_func n l).
Proof.
  intros H.
  assert (D : forall n, (match sparse_expr_ P SP has_func n l' with (n', (e, k, u)) => (n', inl (SLSValue e, u, k)) end : N * (ssource_value * option syn_message * nat + messages)) =
    on_snd (either (shift_taken shift_sv)) (match sparse_expr_ P SP has_func n l with (n', (e, k, u)) => (n', inl (SLSValue e, u, k)) end)).
  { clear n. intros n. rewrite (expr_shift n _ _ H). destruct (sparse_expr_ P SP has_func n l) as [n' [[e k] u]]. reflexivity. }
  unfold sparse_source_value. destruct H as [|a a' r r' Ha Hr]; [apply D|]. destruct Ha as [t args args' tup tup' pat Hargs Htup].
  destruct t as [? ?|? ? ?|? ?|[] ts s]; try apply D. cbn [SpecSpanShift.shift1 s_tuple] in D |- *. rewrite Htup.
  destruct (tup n) as [n' [[t u]|e]]; [reflexivity|]. cbn [on_snd either fst snd]. apply D.
Qed.
Lemma source_list_shift n t t' : R t t' -> sparse_source_list P SP has_func n t' =
  on_snd (either (fun x => (map shift_source_value (fst x), shift_unread (snd x)))) (sparse_source_list P SP has_func n t).
Proof.
  intros [tok args args' tup tup' pat _ _]. unfold sparse_source_list. cbn [s_tok].
  assert (D : [error_at call_site [shift1 tok] (txt "expected square brackets")] = shift_messages [error_at call_site [tok] (txt "expected square brackets")])
    by (rewrite <- error_here; reflexivity).
  destruct tok as [? ?|? ? ?|? ?|d ts s]; cbn [SpecSpanShift.shift1] in D |- *; try (rewrite D; reflexivity).
  destruct d; try (rewrite D; reflexivity). cbn [shift_delims ds_close].
  rewrite (terminated_shift shift_sv (ds_close s) _ _ source_value_shift _ _ (anns_shift ts)).
  destruct (sparse_terminated (ds_close s) _ _ None n) as [n' [l|e]]; [|reflexivity]. unfold on_snd. cbn [either fst snd].
  apply (f_equal (fun x => (n', inl x))). apply (first_unexpected_shift shift_source_value).
Qed.
Definition loops_related (x x' : N * (list sloop_item * list satok * option syn_message + messages)) : Prop :=
  match x, x' with
  | (n, inl (items, rest, u)), (n', inl (items', rest', u')) =>
      n' = n /\ items' = map shift_loop items /\ LR rest rest' /\ u' = shift_unread u
  | (n, inr e), (n', inr e') => n' = n /\ e' = shift_messages e
  | _, _ => False
  end.
Lemma loops_shift k : forall l l', List.length l <= k -> LR l l' -> forall n, loops_related (sparse_loops P SP has_func l n) (sparse_loops P SP has_func l' n).
Proof.
  induction k as [|k IH]; intros l l' Hk H n.
  { destruct H; [cbn; repeat split; constructor|cbn in Hk; lia]. }
  assert (H0 := H). destruct H as [|f f' r0 r0' Hf Hr0]; [cbn; repeat split; constructor|]. cbn [sparse_loops]. rewrite (R_erase _ _ Hf).
  destruct (is_word (txt "for") _); [|cbn; repeat split; assumption].
  assert (Dn : shift [] = @nil stt) by reflexivity.
  destruct Hr0 as [|pat pat' r1 r1' Hp Hr1].
  { split; [reflexivity|]. rewrite <- ident_here, Dn. reflexivity. }
  rewrite (loop_alias_shift _ _ _ _ Hp Hr1). destruct (sparse_loop_alias P pat r1) as [al|e]; [|split; reflexivity]. cbn [either].
  assert (T1 := LR_toks _ _ Hr1). destruct Hr1 as [|kw kw' r2 r2' Hkw Hr2].
  { split; [reflexivity|]. unfold expected_word. rewrite <- error_here, Dn. reflexivity. }
  rewrite (R_erase _ _ Hkw). destruct (is_word (txt "in") _).
  - destruct Hr2 as [|src src' r r' Hs Hr].
    { split; [reflexivity|]. rewrite <- error_here, Dn. reflexivity. }
    rewrite (source_list_shift n _ _ Hs). destruct (sparse_source_list P SP has_func n src) as [n1 [[vals u]|e]]; [|split; reflexivity].
    cbn [on_snd fst snd either]. assert (Hl : List.length r <= k) by (cbn in Hk; lia). specialize (IH r r' Hl Hr n1).
    destruct (sparse_loops P SP has_func r n1) as [n2 [[[items rest] u2]|e]], (sparse_loops P SP has_func r' n1) as [n2' [[[items' rest'] u2']|e']];
      cbn in IH |- *; try contradiction; [|exact IH]. destruct IH as (-> & -> & Hrest & ->).
    repeat split; try assumption; try reflexivity. rewrite <- first_some_shift. reflexivity.
  - split; [reflexivity|]. unfold expected_word. rewrite T1, error_here. reflexivity.
Qed.
Definition header_related (x x' : option (list sloop_item) * option salias_spec * list satok * option syn_message + messages) : Prop :=
  match x, x' with
  | inl (loops, spec, rest, u), inl (loops', spec', rest', u') =>
      loops' = option_map (map shift_loop) loops /\ spec' = option_map shift_spec spec /\ LR rest rest' /\ u' = shift_unread u
  | inr e, inr e' => e' = shift_messages e
  | _, _ => False
  end.
Lemma header_shift n ts : header_related (sparse_header P SP has_func n (map (sann P SP has_func) ts))
  (sparse_header P SP has_func n (map (sann P SP has_func) (shift ts))).
Proof.
  unfold sparse_header. assert (H := loops_shift _ _ _ (le_n _) (anns_shift ts) n).
  destruct (sparse_loops P SP has_func (map (sann P SP has_func) ts) n) as [n1 [[[loops l1] u1]|e]],
    (sparse_loops P SP has_func (map (sann P SP has_func) (shift ts)) n) as [n1' [[[loops' l1'] u1']|e']]; cbn in H; try contradiction; [|apply H].
  destruct H as (-> & -> & Hl & ->). rewrite (peek_shift _ _ Hl).
  assert (El : match map shift_loop loops with [] => None | _ => Some (map shift_loop loops) end = option_map (map shift_loop) (match loops with [] => None | _ => Some loops end))
    by (destruct loops; reflexivity).
  destruct (speek_ident P l1); [|cbn; repeat split; assumption].
  assert (H2 := spec_shift _ _ Hl None None n1).
  destruct (sparse_spec P SP has_func l1 None None n1) as [n2 [[[[items used] l2] u2]|e]],
    (sparse_spec P SP has_func l1' None None n1) as [n2' [[[[items' used'] l2'] u2']|e']]; cbn in H2 |- *; try contradiction; [|apply H2].
  destruct H2 as (_ & -> & -> & Hl2 & ->). repeat split; try assumption. apply first_some_shift.
Qed.

Lemma semicolons_shift spec : suses_semicolons (option_map shift_spec spec) = suses_semicolons spec.
Proof. destruct spec; reflexivity. Qed.
Lemma finish_shift sc u rest ast : finish sc (shift_unread u) (shift rest) (shift_ast (shift_block g) ast) = shift_parsed (finish sc u rest ast).
Proof.
  destruct u as [m|]; [reflexivity|]. destruct rest as [|t r]; [reflexivity|]. cbn [shift_unread option_map SpecSpanShift.shift map finish].
  rewrite unexpected_shift. reflexivity.
Qed.
Lemma func_macro_shift n ts : sparse_func_macro P SP has_func n (shift ts) = shift_parsed (sparse_func_macro P SP has_func n ts).
Proof.
  unfold sparse_func_macro. assert (H := header_shift n ts).
  destruct (sparse_header P SP has_func n (map (sann P SP has_func) ts)) as [[[[loops spec] l] u1]|e],
    (sparse_header P SP has_func n (map (sann P SP has_func) (shift ts))) as [[[[loops' spec'] l'] u1']|e']; cbn in H; try contradiction; [|subst; reflexivity].
  destruct H as (-> & -> & Hl & ->). rewrite (LR_toks _ _ Hl), (moves_pre_block _ _ MP), (moves_block_error _ _ MP).
  destruct (spre_block SP (stoks l)) as [[[block k] u2]|]; [|reflexivity]. cbn [option_map shift_node]. rewrite semicolons_shift.
  change (option_map (shift_message g) u2) with (shift_unread u2). rewrite first_some_shift.
  set (ast := {| sa_loops := loops; sa_spec := spec; sa_block := block |}).
  change {| sa_loops := option_map (map shift_loop) loops; sa_spec := option_map shift_spec spec; sa_block := shift_block g block |} with (shift_ast (shift_block g) ast).
  replace (skipn k (shift (stoks l))) with (shift (skipn k (stoks l))) by (symmetry; apply skipn_map).
  destruct (skipn k (stoks l)) as [|t r]; [apply (finish_shift _ _ [])|]. cbn [SpecSpanShift.shift map]. rewrite erase_shift1.
  assert (Em : strailing_mixed (shift1 t) (option_map shift_spec spec) = strailing_mixed t spec)
    by (destruct spec; cbn; rewrite ?erase_shift1; reflexivity).
  rewrite Em. change (map shift1 r) with (shift r). destruct (is_separator _); [|apply (finish_shift _ _ (t :: r))].
  destruct (strailing_mixed t spec); [|apply finish_shift]. unfold ssyntax_error, shift_parsed. cbn [sp_scope sp_ast either]. rewrite error_here. reflexivity.
Qed.
Lemma skip_separator_shift loops spec ts : sskip_separator (option_map (map shift_loop) loops) (option_map shift_spec spec) (shift ts) =
  either shift (sskip_separator loops spec ts).
Proof.
  destruct ts as [|t r]; [reflexivity|]. cbn [SpecSpanShift.shift map sskip_separator]. rewrite erase_shift1. destruct (is_separator _); [|reflexivity].
  destruct spec; [reflexivity|]. destruct loops; [|reflexivity]. cbn [option_map either]. rewrite <- error_here. reflexivity.
Qed.
Lemma attr_macro_shift n attr item : sparse_attr_macro P SP has_func n (shift attr) (shift item) = shift_parsed (sparse_attr_macro P SP has_func n attr item).
Proof.
  unfold sparse_attr_macro. assert (H := header_shift n attr).
  destruct (sparse_header P SP has_func n (map (sann P SP has_func) attr)) as [[[[loops spec] l] u1]|e],
    (sparse_header P SP has_func n (map (sann P SP has_func) (shift attr))) as [[[[loops' spec'] l'] u1']|e']; cbn in H; try contradiction; [|subst; reflexivity].
  destruct H as (-> & -> & Hl & ->). rewrite (LR_toks _ _ Hl), skip_separator_shift, semicolons_shift.
  destruct (sskip_separator loops spec (stoks l)) as [rest|e]; [|reflexivity]. cbn [either].
  set (b := [SpanItem.sgroup Brace call_site item]).
  assert (Eb : [SpanItem.sgroup Brace call_site (shift item)] = shift b).
  { unfold b, SpanItem.sgroup. cbn [SpecSpanShift.shift map SpecSpanShift.shift1]. rewrite shift_single, C. reflexivity. }
  rewrite Eb. set (a0 := {| sa_loops := loops; sa_spec := spec; sa_block := [] |}).
  change {| sa_loops := option_map (map shift_loop) loops; sa_spec := option_map shift_spec spec; sa_block := [] |} with (shift_ast (shift_block g) a0).
  rewrite finish_shift. destruct (finish _ u1 rest a0) as [sc [ast|e]]; [|reflexivity]. cbn [shift_parsed sp_ast either].
  rewrite (moves_pre_block _ _ MP), (moves_block_error _ _ MP). destruct (spre_block SP b) as [[[block k] u2]|]; [|reflexivity]. cbn [option_map shift_node].
  replace (if Nat.eqb k 1 then [] else shift b) with (shift (if Nat.eqb k 1 then [] else b)) by (destruct (Nat.eqb k 1); reflexivity).
  apply (finish_shift _ u2 _ {| sa_loops := loops; sa_spec := spec; sa_block := block |}).
Qed.
End Shift.
