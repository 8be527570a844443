(** Proofs for C84. *)
From Coq Require Import String.
From Verif Require Import Base BaseFacts Token Types Values Ast Item Parse SpanTokens SpanWalker SpanValues SpanEval SpanItem SpanParse SpecSpanGrammar
  SpanDressProofs.
Open Scope list_scope.

Lemma punct_of c t : is_punct c (erase t) = true -> exists j s, t = SPunct c j s.
Proof. destruct t as [?|d j s|?|? ? ?]; cbn [erase is_punct]; try discriminate. intros E. apply N.eqb_eq in E as <-. eauto. Qed.
Lemma comma_of t : is_comma (erase t) = true <-> comma t.
Proof. unfold comma. split; [apply punct_of|intros (j & s & ->); reflexivity]. Qed.
Lemma no_comma t : is_comma (erase t) = false -> ~ comma t.
Proof. intros H C. apply comma_of in C. congruence. Qed.
Lemma separator_of t : is_separator (erase t) = true -> separator (is_comma (erase t)) t.
Proof.
  unfold separator, is_separator. destruct (is_comma (erase t)) eqn:E; intros H; [apply punct_of, E|apply punct_of, H].
Qed.
Lemma word_of x t : is_word x (erase t) = true -> exists s, t = SIdent x s.
Proof. destruct t as [y s|?|?|? ? ?]; cbn [erase is_word]; try discriminate. intros H. apply str_eqb_eq in H as <-. eauto. Qed.

Section Written.
Context (P : parsers) (SP : sparsers) (hf : str -> bool).
Notation written := (written P SP hf).
Notation arg_here := (fun ts e k => Forall (fun t => ~ comma t) (firstn k ts) /\ exists j, written (firstn k ts) e j /\ skipn j (firstn k ts) = []).
Notation element_written := (element_written P SP hf).
Notation pattern_written := (pattern_written P).
Notation source_written := (source_written P SP hf).

(** ** Values *)
Definition good_candidate (ts : list stt) (c : scandidate) : Prop := let '(v, k, u) := c in u = None -> value_written P SP ts v k.
Lemma attempts_written ts : Forall (fun o => forall c, o = Some c -> good_candidate ts c) (sattempts P SP ts).
Proof.
  assert (N : forall f o, (forall n k, o = Some (n, k, None) -> value_written P SP ts (f n) k) -> forall c, snode_candidate f o = Some c -> good_candidate ts c).
  { intros f o H c E. destruct o as [[[n k] u]|]; [|discriminate E]. injection E as <-. intros ->. apply H. reflexivity. }
  unfold sattempts. rewrite !Forall_cons_iff. refine (conj _ (conj _ (conj _ (conj _ (conj _ (conj _ (conj _ (Forall_nil _)))))))).
  - intros c E. unfold slit_int_candidate in E. destruct (spre_lit_int SP ts) as [[[[d r] s] k]|] eqn:H; [|discriminate E]. injection E as <-. intros _. econstructor. exact H.
  - intros c E. unfold slit_str_candidate in E. destruct (spre_lit_str SP ts) as [[[[d r] s] k]|] eqn:H; [|discriminate E]. injection E as <-. intros _. econstructor. exact H.
  - intros c E. destruct ts as [|t r]; [discriminate E|]. cbn [sunderscore_candidate] in E. destruct (_ || _) eqn:H; [|discriminate E]. injection E as <-. intros _.
    apply orb_true_iff in H as [H|H]; [apply word_of in H as (s & ->); apply underscore_written|].
    apply punct_of in H as (j & s & ->). apply underscore_punct_written.
  - intros c E. destruct ts as [|[x s|? ? ?|? ?|? ? ?] r]; try discriminate E. cbn in E. destruct (ident_allowed P x) eqn:H; [|discriminate E]. injection E as <-. intros _. constructor. exact H.
  - apply N. intros n k H. constructor. exact H.
  - apply N. intros n k H. constructor. exact H.
  - apply N. intros n k H. constructor. exact H.
Qed.
Lemma ends_comma ts : ends is_comma (map erase ts) = true -> ts = [] \/ exists t r, ts = t :: r /\ comma t.
Proof. destruct ts as [|t r]; [left; reflexivity|]. intros H. right. exists t, r. split; [reflexivity|]. apply comma_of. exact H. Qed.
Lemma until_split ts : exists b, ts = suntil is_comma ts ++ b /\ Forall (fun t => ~ comma t) (suntil is_comma ts) /\ (b = [] \/ exists t r, b = t :: r /\ comma t).
Proof.
  induction ts as [|t ts IH]; [exists []; split; [reflexivity|split; [constructor|left; reflexivity]]|]. destruct IH as (b & E & F & G). cbn [suntil]. destruct (is_comma (erase t)) eqn:H.
  - exists (t :: ts). repeat split; [constructor|]. right. exists t, ts. split; [reflexivity|]. apply comma_of, H.
  - exists b. split; [cbn; congruence|]. split; [constructor; [apply no_comma, H|exact F]|exact G].
Qed.
Lemma value_is n ts n' e k : sparse_value P SP is_comma n ts = (n', (e, k, None)) -> written ts e k.
Proof.
  unfold sparse_value.
  set (ok := fun acc : N * option (nat * (sexpr * nat * option syn_message)) =>
    match snd acc with Some (_, (e, k, u)) => u = None -> written ts e k | None => True end).
  assert (G : forall l, Forall (fun o => forall c, o = Some c -> good_candidate ts c) l -> forall acc, ok acc -> ok (fold_left (sattempt is_comma ts) l acc)).
  { induction 1 as [|o l Ho _ IH]; intros acc Ha; [exact Ha|]. cbn [fold_left]. apply IH. destruct acc as [m best]. unfold sattempt.
    destruct (stry_parse is_comma ts o) as [[[v j] u]|] eqn:E; [|exact Ha].
    assert (Hc : u = None -> written ts (SEValue m v) j).
    { destruct o as [[[v' k'] u']|]; [|discriminate E]. cbn in E. destruct (ends is_comma (map erase (skipn k' ts))) eqn:En; [|discriminate E]. injection E as -> -> ->.
      intros Hu. apply value_is_written; [apply (Ho _ eq_refl), Hu|]. apply ends_comma, En. }
    destruct best as [[q r]|]; [|exact Hc]. destruct (Nat.ltb q _); [exact Hc|exact Ha]. }
  specialize (G _ (attempts_written ts) (n, None) I). destruct (fold_left _ _ _) as [m [[q [[e' k'] u]]|]].
  - intros H. injection H as _ -> -> ->. apply G. reflexivity.
  - intros H. injection H as _ <- <-. destruct (until_split ts) as (b & E & F & C). apply value_is_written; [exact (tokens_written P SP ts _ b E F)|].
    assert (Sk : skipn (List.length (suntil is_comma ts)) ts = b) by (rewrite E at 2; rewrite skipn_app, skipn_all, Nat.sub_diag; reflexivity).
    unfold comma_follows. rewrite Sk. exact C.
Qed.

(** ** Recursion *)
Definition tok_ok (t : satok) : Prop :=
  match s_tok t with
  | SGroup Paren inner _ =>
      (forall n, snd (s_args t n) = [] \/ separated arg_here inner (snd (s_args t n))) /\
      (forall n x, snd (s_tuple t n) = inl (x, None) -> separated element_written inner x) /\
      (forall p, s_pattern t = inl p -> separated pattern_written inner p)
  | _ => True
  end.
Lemma expr_is n l n' e k : Forall tok_ok l -> sparse_expr_ P SP hf n l = (n', (e, k, None)) -> written (stoks l) e k.
Proof.
  intros H. unfold sparse_expr_. destruct (sparse_call P hf n l) as [[m [e' k']]|] eqn:E; [|apply value_is]. intros R. injection R as -> -> ->.
  unfold sparse_call in E. destruct l as [|[[x s|? ? ?|? ?|? ? ?] a1 a2 a3] [|[[? ?|? ? ?|? ?|[] g gs] b1 b2 b3] l]]; try discriminate E.
  destruct (ident_allowed P x) eqn:Hx; [|discriminate E]. destruct (hf x) eqn:Hh; [|discriminate E]. cbn [andb s_args] in E.
  inversion H as [|? ? _ Hl]; subst. inversion Hl as [|? ? Hg _]; subst. destruct Hg as (Hg & _). specialize (Hg n). cbn [s_args] in Hg.
  destruct (b1 n) as [n1 args]. injection E as _ <- <-. apply call_is_written; assumption.
Qed.

Section Terminated.
Context {A : Type} (here : list stt -> A -> nat -> Prop) (scope : span) (item : N -> list satok -> N * (A * nat + messages)).
Context (Hitem : forall n l n' a k, Forall tok_ok l -> item n l = (n', inl (a, k)) -> here (stoks l) a k).
Definition goes_on (ts : list stt) (k : nat) (xs : list A) : Prop :=
  (skipn k ts = [] /\ xs = []) \/ exists c r, skipn k ts = c :: r /\ comma c /\ separated here r xs.
Lemma terminated_is l : Forall tok_ok l -> forall skip n n' xs, sparse_terminated scope item l skip n = (n', inl xs) ->
  match skip with Some k => goes_on (stoks l) k xs | None => separated here (stoks l) xs end.
Proof.
  induction l as [|t l IH]; intros H skip n n' xs.
  { intros E. injection E as _ <-. destruct skip as [k|]; [left; split; [destruct k; reflexivity|reflexivity]|constructor]. }
  inversion H as [|? ? Ht Hl]; subst. specialize (IH Hl). cbn [sparse_terminated]. destruct skip as [[|k]|].
  - destruct (is_comma (erase (s_tok t))) eqn:C; [|discriminate]. intros E. apply IH in E. right. exists (s_tok t), (stoks l). split; [reflexivity|]. split; [apply comma_of, C|exact E].
  - intros E. apply IH in E. exact E.
  - destruct (item n (t :: l)) as [n1 [[x k]|e]] eqn:Ei; [|discriminate]. apply Hitem in Ei; [|exact H].
    assert (G : forall ys, goes_on (stoks (t :: l)) k ys -> xs = x :: ys -> separated here (stoks (t :: l)) xs).
    { intros ys [[G1 ->]|(c & r' & G1 & G2 & G3)] ->; [eapply separated_last; [discriminate|eassumption|exact G1]|eapply separated_more; eassumption]. }
    destruct k as [|k].
    + destruct (is_comma (erase (s_tok t))) eqn:C; [|discriminate]. destruct (sparse_terminated scope item l None n1) as [n2 [ys|e]] eqn:Er; [|discriminate].
      intros E. injection E as _ <-. apply IH in Er. apply (G ys); [|reflexivity]. right. exists (s_tok t), (stoks l). split; [reflexivity|]. split; [apply comma_of, C|exact Er].
    + destruct (sparse_terminated scope item l (Some k) n1) as [n2 [ys|e]] eqn:Er; [|discriminate].
      intros E. injection E as _ <-. apply IH in Er. apply (G ys); [exact Er|reflexivity].
Qed.
End Terminated.

Lemma auntil_toks l : stoks (sauntil is_comma l) = suntil is_comma (stoks l).
Proof. induction l as [|t l IH]; [reflexivity|]. cbn. destruct (is_comma _); [reflexivity|]. cbn. f_equal. exact IH. Qed.
Lemma auntil_ok l : Forall tok_ok l -> Forall tok_ok (sauntil is_comma l).
Proof. induction 1 as [|t l Ht _ IH]; [constructor|]. cbn. destruct (is_comma _); constructor; assumption. Qed.
Lemma arg_is n l n' e k : Forall tok_ok l -> sparse_arg P SP hf n l = (n', inl (e, k)) -> arg_here (stoks l) e k.
Proof.
  intros H. unfold sparse_arg. destruct (sparse_expr_ P SP hf n (sauntil is_comma l)) as [n1 [[e' j] u]] eqn:E. destruct u as [m|]; [discriminate|].
  apply expr_is in E; [|apply auntil_ok, H]. rewrite auntil_toks in *.
  destruct (until_split (stoks l)) as (b & E1 & F & _). destruct (skipn j (suntil is_comma (stoks l))) eqn:S; [|discriminate]. intros R. injection R as _ <- <-.
  assert (K : firstn (List.length (sauntil is_comma l)) (stoks l) = suntil is_comma (stoks l)).
  { assert (L : List.length (sauntil is_comma l) = List.length (suntil is_comma (stoks l))) by (rewrite <- auntil_toks; unfold stoks; rewrite map_length; reflexivity).
    rewrite L. rewrite E1 at 2. rewrite firstn_app, Nat.sub_diag, firstn_all. cbn. apply app_nil_r. }
  rewrite K. split; [exact F|]. exists j. auto.
Qed.
Lemma args_is scope l n : Forall tok_ok l -> snd (sparse_args P SP hf scope l n) = [] \/ separated arg_here (stoks l) (snd (sparse_args P SP hf scope l n)).
Proof.
  intros H. unfold sparse_args. destruct (sparse_terminated scope (sparse_arg P SP hf) l None n) as [n' [xs|e]] eqn:E; [|left; reflexivity]. right. cbn [snd].
  exact (terminated_is (arg_here) scope (sparse_arg P SP hf) arg_is l H None n n' xs E).
Qed.
(** Nothing was left unread, so everything is written. *)
Lemma all_read {A} (here : list stt -> A -> nat -> Prop) ts (xs : list (A * option syn_message)) :
  separated (fun ts x k => snd x = None -> here ts (fst x) k) ts xs -> snd (first_unexpected xs) = None -> separated here ts (fst (first_unexpected xs)).
Proof.
  unfold first_unexpected. cbn [fst snd]. induction 1 as [|ts x k Hn Hx Hk|ts x k c r xs Hx Hk Hc _ IH].
  - intros _. constructor.
  - cbn. intros U. apply separated_last with (k := k); [exact Hn| |exact Hk]. apply Hx. destruct (snd x); [discriminate U|reflexivity].
  - cbn. intros U. destruct (snd x) as [m|]; [discriminate U|]. eapply separated_more; eauto.
Qed.
Lemma element_is n l n' x k : Forall tok_ok l -> sparse_tuple_value P SP hf n l = (n', inl (x, k)) -> snd x = None -> element_written (stoks l) (fst x) k.
Proof.
  intros H. assert (G : (match sparse_expr_ P SP hf n l with (n', (e, k, u)) => (n', inl (TVValue e, u, k)) end) = (n', (inl (x, k) : _ + messages)) -> snd x = None -> element_written (stoks l) (fst x) k).
  { destruct (sparse_expr_ P SP hf n l) as [n1 [[e j] u]] eqn:E. intros R. injection R as _ <- <-. cbn [fst snd]. intros ->. constructor. eapply expr_is; eassumption. }
  destruct l as [|[[? ?|? ? ?|? ?|[] g gs] b1 b2 b3] l]; try exact G. inversion H as [|? ? Ht _]; subst. destruct Ht as (_ & Ht & _). specialize (Ht n).
  cbn [sparse_tuple_value s_tuple] in *. destruct (b2 n) as [m [[t u]|e]]; [|discriminate]. intros R. injection R as _ <- <-. cbn [fst snd] in *. intros ->.
  apply (tuple_element P SP hf g gs (stoks l) t). apply Ht. reflexivity.
Qed.
Lemma tuple_is scope l n x : Forall tok_ok l -> snd (sparse_tuple P SP hf scope l n) = inl (x, None) -> separated element_written (stoks l) x.
Proof.
  intros H. unfold sparse_tuple. destruct (sparse_terminated scope (sparse_tuple_value P SP hf) l None n) as [n' [xs|e]] eqn:E; [|discriminate].
  cbn [snd]. intros R. assert (F := terminated_is (fun ts x k => snd x = None -> element_written ts (fst x) k) scope _ element_is l H None n n' xs E).
  injection R as Hx Hu. subst x. exact (all_read _ _ _ F Hu).
Qed.
Lemma pattern_value_is scope n l n' p k : Forall tok_ok l -> sparse_pattern_value P scope n l = (n', inl (p, k)) -> pattern_written (stoks l) p k.
Proof.
  intros H. destruct l as [|[[x s|? ? ?|? ?|[] g gs] b1 b2 b3] l]; try discriminate.
  - cbn. destruct (ident_allowed P x) eqn:Hx; [|discriminate]. intros R. injection R as _ <- <-. constructor. exact Hx.
  - inversion H as [|? ? Ht _]; subst. destruct Ht as (_ & _ & Ht). cbn in *. destruct b3 as [t|]; [|discriminate]. intros R. injection R as _ <- <-.
    constructor. apply Ht. reflexivity.
Qed.
Lemma pattern_is scope l p : Forall tok_ok l -> sparse_pattern P scope l = inl p -> separated pattern_written (stoks l) p.
Proof.
  intros H. unfold sparse_pattern. destruct (sparse_terminated scope (sparse_pattern_value P scope) l None 0%N) as [n' [xs|e]] eqn:E; [|discriminate].
  intros R. injection R as <-. exact (terminated_is pattern_written scope _ (pattern_value_is scope) l H None _ _ _ E).
Qed.
Lemma ann_tok t : s_tok (sann P SP hf t) = t.
Proof. destruct t as [? ?|? ? ?|? ?|[] ? ?]; reflexivity. Qed.
Lemma anns_toks ts : stoks (map (sann P SP hf) ts) = ts.
Proof. induction ts as [|t ts IH]; [reflexivity|]. cbn [map stoks]. fold (stoks (map (sann P SP hf) ts)). rewrite ann_tok. f_equal. exact IH. Qed.
Lemma ann_ok t : tok_ok (sann P SP hf t).
Proof.
  induction t as [x s|c j s|l s|d ts s IH] using stt_ind'; try exact I. destruct d; try exact I.
  assert (H : Forall tok_ok (map (sann P SP hf) ts)) by (clear -IH; induction IH; constructor; assumption).
  unfold tok_ok. cbn [sann s_tok s_args s_tuple s_pattern].
  split; [intros n; assert (G := args_is (ds_close s) _ n H); rewrite anns_toks in G; exact G|].
  split; [intros n x E; apply tuple_is in E; [|exact H]|intros p E; apply pattern_is in E; [|exact H]]; rewrite anns_toks in E; exact E.
Qed.
Lemma anns_ok ts : Forall tok_ok (map (sann P SP hf) ts).
Proof. induction ts; constructor; [apply ann_ok|assumption]. Qed.
Lemma skipn_ok k l : Forall tok_ok l -> Forall tok_ok (skipn k l).
Proof. intros H. revert k. induction H; intros [|k]; cbn; auto. Qed.
Lemma skipn_toks k l : stoks (skipn k l) = skipn k (stoks l).
Proof. unfold stoks. symmetry. apply skipn_map. Qed.

(** ** Loops *)
Lemma source_is n l n' x k : Forall tok_ok l -> sparse_source_value P SP hf n l = (n', inl (x, k)) -> snd x = None -> source_written (stoks l) (fst x) k.
Proof.
  intros H. assert (G : forall n, (match sparse_expr_ P SP hf n l with (n', (e, k, u)) => (n', inl (SLSValue e, u, k)) end) = (n', (inl (x, k) : _ + messages)) -> snd x = None -> source_written (stoks l) (fst x) k).
  { clear n. intros n. destruct (sparse_expr_ P SP hf n l) as [n1 [[e j] u]] eqn:E. intros R. injection R as _ <- <-. cbn [fst snd]. intros ->. constructor. eapply expr_is; eassumption. }
  unfold sparse_source_value. destruct l as [|[[? ?|? ? ?|? ?|[] g gs] b1 b2 b3] l]; try apply G. inversion H as [|? ? Ht _]; subst. destruct Ht as (_ & Ht & _). specialize (Ht n).
  cbn [s_tuple] in *. destruct (b2 n) as [m [[t u]|e]]; [|apply G]. intros R. injection R as _ <- <-. cbn [fst snd] in *. intros ->.
  apply (tuple_source P SP hf g gs (stoks l) t). apply Ht. reflexivity.
Qed.
Lemma source_list_is n t n' vs : sparse_source_list P SP hf n t = (n', inl (vs, None)) -> exists inner gs, s_tok t = SGroup Bracket inner gs /\ separated source_written inner vs.
Proof.
  unfold sparse_source_list. destruct (s_tok t) as [? ?|? ? ?|? ?|[] g gs] eqn:Et; try discriminate.
  destruct (sparse_terminated _ _ _ _ _) as [m [xs|e]] eqn:E; [|discriminate]. intros R. injection R as _ Hx Hu. exists g, gs. split; [reflexivity|].
  assert (F := terminated_is (fun ts x k => snd x = None -> source_written ts (fst x) k) _ _ source_is _ (anns_ok g) None _ _ _ E). rewrite anns_toks in F.
  subst vs. exact (all_read _ _ _ F Hu).
Qed.
Lemma loop_alias_is t rest al : tok_ok t -> sparse_loop_alias P t rest = inl al -> loop_alias_written P (s_tok t) al.
Proof.
  unfold sparse_loop_alias, tok_ok. destruct (s_tok t) as [x s|? ? ?|? ?|[] g gs]; try discriminate; intros H.
  - destruct (ident_allowed P x) eqn:Hx; [|discriminate]. intros R. injection R as <-. constructor. exact Hx.
  - destruct H as (_ & _ & H). destruct (s_pattern t) as [p|e]; [|discriminate]. intros R. injection R as <-. constructor. apply H. reflexivity.
Qed.
Lemma first_none {A} (a b : option A) : first_some a b = None -> a = None /\ b = None.
Proof. destruct a; [discriminate|]. cbn. auto. Qed.
Lemma loops_is : forall m l, List.length l <= m -> Forall tok_ok l -> forall n n' ls rest, sparse_loops P SP hf l n = (n', inl (ls, rest, None)) ->
  Forall tok_ok rest /\ loops_written P SP hf (stoks l) ls (stoks rest).
Proof.
  induction m as [|m IH]; intros l Hm H n n' ls rest.
  { destruct l; [|cbn in Hm; lia]. intros E. injection E as _ <- <-. split; [constructor|]. constructor. discriminate. }
  destruct l as [|f l]; [intros E; injection E as _ <- <-; split; [constructor|]; constructor; discriminate|]. cbn [sparse_loops].
  destruct (is_word (txt "for") (erase (s_tok f))) eqn:W.
  2:{ intros E. injection E as _ <- <-. split; [exact H|]. constructor. intros s r E. injection E as E _. rewrite E in W. cbn in W. discriminate W. }
  inversion H as [|? ? Hf Hl]; subst. destruct l as [|p l]; [discriminate|]. destruct (sparse_loop_alias P p l) as [al|e] eqn:Ea; [|discriminate].
  inversion Hl as [|? ? Hp Hl']; subst. destruct l as [|k l]; [discriminate|]. destruct (is_word (txt "in") (erase (s_tok k))) eqn:Wk; [|discriminate].
  inversion Hl' as [|? ? Hk Hl2]; subst. destruct l as [|s l]; [discriminate|]. inversion Hl2 as [|? ? Hs Hl3]; subst.
  destruct (sparse_source_list P SP hf n s) as [n1 [[vs u]|e]] eqn:Es; [|discriminate].
  assert (Hm' : List.length l <= m) by (cbn in Hm; lia). specialize (IH l Hm' Hl3 n1).
  destruct (sparse_loops P SP hf l n1) as [n2 [[[items rest'] u']|e]]; [|discriminate]. intros R. injection R as _ <- -> Hu. apply first_none in Hu as [-> ->].
  destruct (IH _ _ _ eq_refl) as [I1 I2]. split; [exact I1|]. apply source_list_is in Es as (inner & gs & Es & Hv). apply loop_alias_is in Ea; [|exact Hp].
  apply word_of in W as (s1 & W). apply word_of in Wk as (s2 & Wk). unfold stoks in *. cbn [map]. rewrite W, Wk, Es. constructor; assumption.
Qed.

(** ** Definitions *)
Lemma peek_is l : speek_ident P l = true <-> name_ahead P (stoks l).
Proof.
  unfold name_ahead. destruct l as [|[[x s|? ? ?|? ?|? ? ?] b1 b2 b3] l]; cbn; split; intros H; try discriminate H; try (destruct H as (? & ? & ? & H & _); discriminate H).
  - eauto.
  - destruct H as (? & ? & ? & H & H'). injection H as -> -> _. exact H'.
Qed.
Lemma spec_item_is n l n' i k : Forall tok_ok l -> sparse_spec_item P SP hf n l = (n', inl (i, k, None)) ->
  exists x s j es ts e m, stoks l = SIdent x s :: SPunct 61%N j es :: ts /\ ident_allowed P x = true /\ i = (x, e) /\ k = S m /\ written ts e m /\
    ends is_separator (map erase (skipn m ts)) = true.
Proof.
  intros H. destruct l as [|[[x s|? ? ?|? ?|? ? ?] b1 b2 b3] l]; try discriminate. cbn [sparse_spec_item]. destruct (ident_allowed P x) eqn:Hx; [|discriminate].
  inversion H as [|? ? Ht Hl]; subst. destruct l as [|eq r]; [discriminate|]. inversion Hl as [|? ? Hq Hr]; subst.
  destruct (is_equals (erase (s_tok eq))) eqn:Q; [|discriminate]. destruct (sparse_expr_ P SP hf n r) as [n1 [[e m] u]] eqn:E.
  destruct (ends _ _) eqn:En; [|discriminate]. intros R. injection R as _ <- <- ->. apply expr_is in E; [|exact Hr].
  assert (Q' := punct_of _ _ Q).
  destruct Q' as (j & es & Q'). exists x, s, j, es, (stoks r), e, m. unfold stoks in *. cbn [map s_tok]. rewrite Q'. rewrite skipn_map. auto 8.
Qed.
(** What follows a definition, after [k] more tokens. *)
Definition follows (l : list satok) (k : nat) (used : option bool) (items : list sitem) (used' : option bool) (rest : list satok) : Prop :=
  (skipn k (stoks l) = [] /\ items = [] /\ used' = used /\ rest = []) \/
  exists c sep r, skipn k (stoks l) = sep :: stoks r /\ separator c sep /\ Forall tok_ok r /\ (used = None \/ used = Some c) /\
    ((~ name_ahead P (stoks r) /\ items = [] /\ used' = Some c /\ rest = r) \/
     (name_ahead P (stoks r) /\ used' = Some c /\ exists used1, definitions_written P SP hf c (stoks r) items used1 (stoks rest) /\ (used1 = None \/ used1 = Some c))).
Lemma spec_is l : Forall tok_ok l -> forall skip used n n' items used' rest, sparse_spec P SP hf l skip used n = (n', inl (items, used', rest, None)) ->
  Forall tok_ok rest /\
  match skip with
  | Some k => follows l k used items used' rest
  | None => exists x s j es ts e k items', stoks l = SIdent x s :: SPunct 61%N j es :: ts /\ ident_allowed P x = true /\ written ts e k /\
      items = (x, e) :: items' /\ exists l0, ts = stoks l0 /\ follows l0 k used items' used' rest
  end.
Proof.
  induction l as [|t l IH]; intros H skip used n n' items used' rest.
  { destruct skip as [k|]; [|discriminate]. destruct k; intros E; injection E as _ <- <- <-; (split; [constructor|]); left; repeat split. }
  inversion H as [|? ? Ht Hl]; subst. specialize (IH Hl). cbn [sparse_spec]. destruct skip as [[|k]|].
  - destruct (is_separator (erase (s_tok t))) eqn:S; [|discriminate]. cbv zeta. apply separator_of in S. set (c := is_comma (erase (s_tok t))) in *. clearbody c.
    destruct (match used with Some u => negb (Bool.eqb u c) | None => false end) eqn:M; [discriminate|].
    assert (Hu : used = None \/ used = Some c) by (destruct used as [u|]; [right; f_equal; apply Bool.negb_false_iff in M; apply Bool.eqb_prop in M; exact M|left; reflexivity]).
    destruct (speek_ident P l) eqn:Pk.
    + intros E. apply IH in E as [I1 I2]. split; [exact I1|]. right. exists c, (s_tok t), l. repeat (split; [first [reflexivity|assumption]|]). right.
      split; [apply peek_is, Pk|]. destruct I2 as (x & s & j & es & ts & e & m & items' & E1 & E2 & E3 & -> & l0 & -> & F). rewrite E1.
      destruct F as [(F1 & -> & -> & ->)|(c' & sep & r & F1 & F2 & F3 & F4 & F)].
      * split; [reflexivity|]. exists None. split; [|left; reflexivity]. econstructor; eassumption.
      * assert (c' = c) as -> by (destruct F4 as [F4|F4]; [discriminate F4|injection F4; auto]).
        destruct F as [(F5 & -> & -> & ->)|(F5 & -> & used1 & F6 & F7)]; (split; [reflexivity|]); exists (Some c); (split; [|right; reflexivity]).
        -- eapply last_written_separator; eassumption.
        -- eapply more_written; eassumption.
    + intros E. injection E as _ <- <- <-. split; [exact Hl|]. right. exists c, (s_tok t), l. repeat (split; [first [reflexivity|assumption]|]). left.
      repeat split. intros N. apply peek_is in N. congruence.
  - intros E. apply IH in E as [I1 I2]. split; [exact I1|]. exact I2.
  - destruct (sparse_spec_item P SP hf n (t :: l)) as [n1 [[[i k] u]|e]] eqn:Ei; [|discriminate].
    destruct (sparse_spec P SP hf l (Some k) used n1) as [n2 [[[[is us] rs] u']|e]] eqn:Er; [|discriminate]. intros E. injection E as _ <- -> -> Hu. apply first_none in Hu as [-> ->].
    apply spec_item_is in Ei as (x & s & j & es & ts & e & m & E1 & E2 & -> & -> & E3 & _); [|exact H]. apply IH in Er as [I1 I2]. split; [exact I1|].
    exists x, s, j, es, ts, e, m, is. repeat (split; [first [reflexivity|assumption]|]).
    destruct l as [|eq r]; [discriminate E1|]. exists r. unfold stoks in E1. cbn [map] in E1. injection E1 as _ _ <-. split; [reflexivity|]. exact I2.
Qed.
Lemma definitions_is l n n' items used rest : Forall tok_ok l -> sparse_spec P SP hf l None None n = (n', inl (items, used, rest, None)) ->
  Forall tok_ok rest /\ exists c, definitions_written P SP hf c (stoks l) items used (stoks rest).
Proof.
  intros H E. apply spec_is in E as [R (x & s & j & es & ts & e & k & items' & E1 & E2 & E3 & -> & l0 & -> & F)]; [|exact H]. split; [exact R|]. rewrite E1.
  destruct F as [(F1 & -> & -> & ->)|(c & sep & r & F1 & F2 & F3 & _ & F)]; [exists true; econstructor; eassumption|]. exists c.
  destruct F as [(F5 & -> & -> & ->)|(F5 & -> & used1 & F6 & F7)]; [eapply last_written_separator; eassumption|eapply more_written; eassumption].
Qed.
Lemma header_is n ts loops spec rest : sparse_header P SP hf n (map (sann P SP hf) ts) = inl (loops, spec, rest, None) ->
  header_written P SP hf ts loops spec (stoks rest).
Proof.
  unfold sparse_header. destruct (sparse_loops P SP hf _ n) as [n1 [[[ls l1] u1]|e]] eqn:E; [|discriminate]. destruct (speek_ident P l1) eqn:Pk.
  - destruct (sparse_spec P SP hf l1 None None n1) as [n2 [[[[items used] l2] u2]|e]] eqn:Es; [|discriminate]. cbn [snd]. intros R. injection R as <- <- -> Hu. apply first_none in Hu as [-> ->].
    apply (loops_is _ _ (le_n _) (anns_ok ts)) in E as [H1 H2]. rewrite anns_toks in H2. apply definitions_is in Es as [H3 [c H4]]; [|exact H1].
    exists ls, (stoks l1). split; [exact H2|]. split; [reflexivity|]. exists c. exact H4.
  - intros R. injection R as <- <- -> ->. apply (loops_is _ _ (le_n _) (anns_ok ts)) in E as [H1 H2]. rewrite anns_toks in H2.
    exists ls, (stoks rest). split; [exact H2|]. split; [reflexivity|]. split; [reflexivity|]. intros N. apply peek_is in N. congruence.
Qed.

(** ** The input *)
Lemma none_left ts loops sp rest : header_written P SP hf ts loops (Some sp) rest -> ss_comma sp = None -> rest = [].
Proof. intros (ls & ts1 & _ & _ & c & H) E. inversion H; subst; congruence. Qed.
Lemma function_is n ts ast : sp_ast (sparse_func_macro P SP hf n ts) = inl ast -> function_written P SP hf ts ast.
Proof.
  unfold sparse_func_macro. destruct (sparse_header P SP hf n _) as [[[[loops spec] l] u1]|e] eqn:E; [|discriminate].
  destruct (spre_block SP (stoks l)) as [[[block k] u2]|] eqn:B; [|discriminate].
  assert (G : forall sc r, sp_ast (finish sc (first_some u1 u2) r {| sa_loops := loops; sa_spec := spec; sa_block := block |}) = inl ast ->
    ast = {| sa_loops := loops; sa_spec := spec; sa_block := block |} /\ u1 = None /\ u2 = None /\ r = []).
  { intros sc r. unfold finish. destruct (first_some u1 u2) eqn:U; [discriminate|]. apply first_none in U as [-> ->]. destruct r; [|discriminate].
    cbn. intros R. injection R as <-. auto. }
  destruct (skipn k (stoks l)) as [|t r] eqn:S.
  - intros R. apply G in R as (-> & -> & -> & _). apply header_is in E. exists (stoks l), k. auto.
  - destruct (is_separator (erase t)) eqn:St; [|intros R; apply G in R as (_ & _ & _ & R); discriminate R].
    destruct (strailing_mixed t spec) eqn:M; [discriminate|]. intros R. apply G in R as (-> & -> & -> & ->). apply header_is in E.
    exists (stoks l), k. split; [exact E|]. split; [exact B|]. right. apply separator_of in St. exists t, (is_comma (erase t)). split; [exact S|]. split; [exact St|].
    intros sp Esp. cbn in Esp. subst spec. unfold strailing_mixed in M. destruct (ss_comma sp) as [c|] eqn:C.
    + f_equal. destruct (is_comma (erase t)), c; cbn in M; congruence.
    + assert (N := none_left _ _ _ _ E C). rewrite N in S. destruct k; discriminate S.
Qed.
Lemma attribute_is n ts item ast : sp_ast (sparse_attr_macro P SP hf n ts item) = inl ast -> attribute_written P SP hf ts item ast.
Proof.
  unfold sparse_attr_macro. destruct (sparse_header P SP hf n _) as [[[[loops spec] l] u1]|e] eqn:E; [|discriminate].
  destruct (sskip_separator loops spec (stoks l)) as [rest|e] eqn:S; [|discriminate].
  unfold finish at 1. destruct u1 as [m|]; [discriminate|]. destruct rest as [|t r]; [|discriminate]. cbn [sp_ast].
  destruct (spre_block SP _) as [[[block k] u2]|] eqn:B; [|discriminate]. unfold finish. destruct u2; [discriminate|].
  destruct (Nat.eqb k 1) eqn:K; [|discriminate]. apply Nat.eqb_eq in K as ->. cbn [sp_ast]. intros R. injection R as <-. apply header_is in E.
  exists (stoks l). split; [exact E|]. split; [exact B|]. destruct (stoks l) as [|t r]; [left; reflexivity|]. right. cbn in S.
  destruct (is_separator (erase t)) eqn:St; [|discriminate S]. apply separator_of in St. destruct spec; [|destruct loops; discriminate S]. injection S as ->.
  eexists _, _. split; [reflexivity|]. split; [exact St|]. cbn. discriminate.
Qed.
End Written.
