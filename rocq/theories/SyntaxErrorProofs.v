(** The messages of syntax errors are those of SpecSyntaxErrors.v. *)
From Coq Require Import String Bool.
From Verif Require Import Base BaseFacts Token Types Values Ast Item Interpreter Parse SpecSubst SpecParse SpecGrammar SpecRepro
  ParseProofs ParseIds SeparatorProofs ReproProofs GrammarProofs
  SpanTokens SpanWalker SpanValues SpanEval SpanItem SpanParse SpecSpanItem SpecSpanMacro SpanParseProofs SpanMacro SpecSyntaxErrors.
From Verif Require Import Deprecation Macro InterpreterProofs.
Open Scope list_scope.

Notation erase := SpanTokens.erase.

(** ** The messages *)
Lemma place_here s ts : place s ts = here s ts.
Proof. destruct ts as [|[x p|c j p|l p|d l p] r]; reflexivity. Qed.
Lemma error_at_says s ts x : error_at s ts x = says (here s ts) (at_end ts x).
Proof. unfold error_at. rewrite place_here. destruct ts; reflexivity. Qed.
Lemma expected_ident_no_name s ts : expected_ident s ts = no_name s ts.
Proof.
  unfold expected_ident, no_name. destruct ts as [|[x p|c j p|l p|d l p] r]; rewrite error_at_says; [|f_equal..]; cbn [at_end]; rewrite ?app_nil_r; try reflexivity.
Qed.
Lemma expected_punct_no_punct x s ts : expected_punct x s ts = no_punct (txt x) s ts.
Proof. unfold expected_punct, no_punct. rewrite place_here. reflexivity. Qed.
Lemma unexpected_left t : unexpected_token t = left_over t.
Proof. destruct t; reflexivity. Qed.
Lemma is_comma_commab t : is_comma t = commab t.
Proof. destruct t; reflexivity. Qed.

Section Proofs.
Context (P : parsers) (SP : sparsers) (hf : str -> bool) (HS : spanless_parsers P SP).
Notation sann' := (sann P SP hf).

Lemma sann_tok t : s_tok (sann' t) = t.
Proof. destruct t as [x s|c j s|l s|[| | |] l s]; reflexivity. Qed.
Lemma stoks_sann ts : stoks (map sann' ts) = ts.
Proof. unfold stoks. rewrite map_map. induction ts as [|t ts IH]; [reflexivity|]. cbn. rewrite sann_tok, IH. reflexivity. Qed.
Lemma stoks_cons_sann t ts : stoks (sann' t :: map sann' ts) = t :: ts.
Proof. exact (stoks_sann (t :: ts)). Qed.
Lemma skipn_sann k ts : skipn k (map sann' ts) = map sann' (skipn k ts).
Proof. apply skipn_map. Qed.

(** ** Lists *)
Section Lists.
Context {A : Type} (close : span) (item : N -> list satok -> N * (A * nat + messages)).
Definition safter (n : N) (l : list satok) : N * (list A + messages) :=
  match l with
  | [] => (n, inl [])
  | t :: r => if is_comma (erase (s_tok t)) then sparse_terminated close item r None n else (n, inr [expected_punct "," close (stoks l)])
  end.
Lemma sterminated_skip k : forall l n, sparse_terminated close item l (Some k) n = safter n (skipn k l).
Proof. induction k as [|k IH]; intros [|t r] n; try reflexivity. cbn [sparse_terminated skipn]. apply IH. Qed.
Lemma sterminated_eq l n : l <> [] -> sparse_terminated close item l None n =
  match item n l with
  | (n1, inr e) => (n1, inr e)
  | (n1, inl (a, k)) => let (n2, rest) := safter n1 (skipn k l) in (n2, match rest with inl l' => inl (a :: l') | inr e => inr e end)
  end.
Proof.
  destruct l as [|t r]; [contradiction|]. intros _. cbn [sparse_terminated]. destruct (item n (t :: r)) as [n1 [[a k]|e]]; [|reflexivity].
  destruct k as [|k]; cbn [skipn]; [reflexivity|]. rewrite sterminated_skip. reflexivity.
Qed.

Context (R : list tt -> nat -> Prop) (bad : list stt -> messages -> Prop) (m : nat).
Hypothesis item_at : forall ts, ts <> [] -> stream_size (map erase ts) <= m -> forall n k,
  R (map erase ts) k <-> exists a, snd (item n (map sann' ts)) = inl (a, k).
Hypothesis item_bad : forall ts, ts <> [] -> stream_size (map erase ts) <= m -> forall n ms,
  bad ts ms <-> snd (item n (map sann' ts)) = inr ms.

Lemma list_error_spec ts : stream_size (map erase ts) <= m -> forall n ms,
  list_error close R bad ts ms <-> snd (sparse_terminated close item (map sann' ts) None n) = inr ms.
Proof.
  remember (List.length ts) as len eqn:Hlen. revert ts Hlen. induction len as [len IH] using lt_wf_ind. intros ts Hlen Hm n ms.
  destruct ts as [|t ts].
  { cbn. split; [|discriminate]. intros H. inversion H as [? ? Hne|? ? ? ? Hne|? ? ? ? ? _ Hs]; subst; try congruence. rewrite skipn_nil in Hs. discriminate. }
  assert (Hne : t :: ts <> []) by discriminate. set (all := t :: ts) in *. assert (Hne' : map sann' all <> []) by discriminate.
  rewrite (sterminated_eq _ n Hne'). pose proof (item_at all Hne Hm n) as HI. pose proof (item_bad all Hne Hm n) as HB.
  destruct (item n (map sann' all)) as [n1 [[a k]|e]] eqn:Ei; cbn [snd] in HI, HB.
  - assert (Hk : forall j, R (map erase all) j <-> j = k).
    { intros j. rewrite HI. split; [intros (? & E); congruence|intros ->; eauto]. }
    assert (Hb : forall ms, ~ bad all ms) by (intros ms' Hb; apply HB in Hb; discriminate).
    rewrite skipn_sann. destruct (skipn k all) as [|s r] eqn:Es; cbn [map safter].
    + cbn [snd]. split; [|discriminate]. intros H. inversion H as [? ? _ Hb'|? j ? ? _ Hj Hs|? j ? ? ? Hj Hs]; subst; [destruct (Hb _ Hb')|apply Hk in Hj; congruence..].
    + rewrite sann_tok, is_comma_commab. destruct (commab (erase s)) eqn:Ec.
      * assert (Hlt : List.length r < len).
        { subst len. assert (G := f_equal (@List.length stt) Es). rewrite skipn_length in G. cbn [List.length] in G. lia. }
        assert (Hr : stream_size (map erase r) <= m).
        { assert (G := size_skipn k (map erase all)). rewrite skipn_map, Es in G. cbn [map] in G. rewrite size_cons in G. lia. }
        assert (IHr := IH _ Hlt r eq_refl Hr n1 ms). destruct (sparse_terminated close item (map sann' r) None n1) as [n2 rest]. cbn [snd] in *.
        transitivity (list_error close R bad r ms).
        -- split; intros H.
           ++ inversion H as [? ? _ Hb'|? j ? ? _ Hj Hs Hc|? j ? ? ? Hj Hs Hc Hl]; subst; [destruct (Hb _ Hb')|apply Hk in Hj; congruence|].
              apply Hk in Hj. subst j. congruence.
           ++ eapply wrong_later; [apply Hk; reflexivity|exact Es|exact Ec|exact H].
        -- rewrite IHr. destruct rest; split; congruence.
      * cbn [snd]. rewrite expected_punct_no_punct. change (sann' s :: map sann' r) with (map sann' (s :: r)). rewrite stoks_sann.
        split; intros H.
        -- inversion H as [? ? _ Hb'|? j ? ? _ Hj Hs Hc|? j ? ? ? Hj Hs Hc Hl]; subst; [destruct (Hb _ Hb')| |]; apply Hk in Hj; subst j; congruence.
        -- injection H as <-. eapply missing_comma; [exact Hne|apply Hk; reflexivity|exact Es|exact Ec].
  - cbn [snd]. transitivity (bad all ms); [|rewrite HB; split; intros H; injection H as ->; reflexivity]. split; intros H.
    + inversion H as [? ? _ Hb'|? j ? ? _ Hj Hs|? j ? ? ? Hj Hs]; subst; [exact Hb'|apply HI in Hj as (? & E); discriminate..].
    + apply wrong_item; [exact Hne|exact H].
Qed.
End Lists.

(** ** Patterns *)
Lemma at_ident_dec ts : at_ident P (map erase ts) \/ ~ at_ident P (map erase ts).
Proof.
  destruct ts as [|[x s|c j s|l s|d l s] r]; try (right; intros (? & ? & H & _); discriminate). destruct (ident_allowed P x) eqn:E.
  - left. exists x, (map erase r). auto.
  - right. intros (? & ? & H & H'). injection H as <- _. congruence.
Qed.
Lemma pattern_item ts n k : (exists x, pattern_at P (map erase ts) x k) <->
  exists a, snd (sparse_pattern_value P call_site n (map sann' ts)) = inl (a, k).
Proof.
  pose proof (pattern_all P hf (stream_size (map erase ts)) (map erase ts) (le_n _) n) as H.
  rewrite (pattern_value_erase P call_site n _ _ (anns_sim P SP hf HS ts)) in H.
  destruct (sparse_pattern_value P call_site n (map sann' ts)) as [n' [[a j]|e]]; cbn [second snd fst forget_sum] in H; cbn [snd]; split.
  - intros (x & Hx). apply H in Hx as (? & E & _). injection E as _ <-. eauto.
  - intros (b & E). injection E as -> ->. exists b. apply H. eauto.
  - intros (x & Hx). apply H in Hx as (? & E & _). discriminate.
  - intros (b & E). discriminate.
Qed.
Lemma pattern_scope s s' n l : (exists a k, snd (sparse_pattern_value P s n l) = inl (a, k)) -> sparse_pattern_value P s n l = sparse_pattern_value P s' n l.
Proof.
  destruct l as [|[[x p|c j p|q p|[| | |] q p] a1 a2 a3] r]; cbn; intros (a & k & E); try discriminate; try reflexivity.
Qed.
Lemma pattern_item_at close ts n k : (exists x, pattern_at P (map erase ts) x k) <->
  exists a, snd (sparse_pattern_value P close n (map sann' ts)) = inl (a, k).
Proof.
  rewrite (pattern_item ts n k). split; intros (a & E).
  - exists a. rewrite <- (pattern_scope call_site close) by eauto. exact E.
  - exists a. rewrite <- (pattern_scope close call_site) by eauto. exact E.
Qed.
Lemma pattern_error_upto m : forall ts, stream_size (map erase ts) <= m -> forall close n ms,
  pattern_error P close ts ms <-> snd (sparse_pattern_value P close n (map sann' ts)) = inr ms.
Proof.
  induction m as [|m IH]; intros ts Hm close n ms.
  - destruct ts as [|t ts]; [|cbn [map] in Hm; rewrite size_cons in Hm; pose proof (size_pos (erase t)); lia]. change (pattern_error P close [] ms <-> inr (A := tuple_value alias * nat) [expected_ident close []] = inr ms). rewrite expected_ident_no_name. split; intros H.
    + inversion H; subst. reflexivity.
    + injection H as <-. apply no_pattern; [intros (? & ? & E & _); discriminate|discriminate].
  - destruct ts as [|t r].
    { change (pattern_error P close [] ms <-> inr (A := tuple_value alias * nat) [expected_ident close []] = inr ms). rewrite expected_ident_no_name. split; intros H; [inversion H; subst; reflexivity|].
      injection H as <-. apply no_pattern; [intros (? & ? & E & _); discriminate|discriminate]. }
    assert (Hno : (forall inner s r', t :: r <> SGroup Paren inner s :: r') -> ~ at_ident P (map erase (t :: r)) ->
      pattern_error P close (t :: r) ms <-> inr (A := tuple_value alias * nat) [expected_ident close (stoks (map sann' (t :: r)))] = inr ms).
    { intros Hg Hi. rewrite stoks_sann, expected_ident_no_name. split; intros H.
      - inversion H as [? ? _ _|? inner s r' ? _]; subst; [reflexivity|destruct (Hg inner s r); congruence].
      - injection H as <-. apply no_pattern; assumption. }
    destruct t as [x s|c j s|l s|d inner s]; cbn [map sparse_pattern_value sann s_tok].
    + destruct (ident_allowed P x) eqn:E.
      * cbn [snd]. split; [|discriminate]. intros H. inversion H as [? ? Hi _|]; subst. destruct Hi. exists x, (map erase r). auto.
      * apply Hno; [discriminate|]. intros (? & ? & H & H'). injection H as <- _. congruence.
    + apply Hno; [discriminate|]. intros (? & ? & H & H'). discriminate.
    + apply Hno; [discriminate|]. intros (? & ? & H & H'). discriminate.
    + destruct d; try (apply Hno; [discriminate|]; intros (? & ? & H & H'); discriminate). cbn [s_pattern snd].
      assert (Hs : stream_size (map erase inner) <= m) by (cbn [map erase] in Hm; eapply parens_size, Hm).
      assert (HL : list_error (ds_close s) (fun ts k => exists x, pattern_at P ts x k) (pattern_error P (ds_close s)) inner ms <->
        sparse_pattern P (ds_close s) (map sann' inner) = inr ms).
      { unfold sparse_pattern. apply (list_error_spec (ds_close s) (sparse_pattern_value P (ds_close s)) _ _ m); [| |exact Hs].
        - intros ts _ _ n' k. apply pattern_item_at.
        - intros ts _ Ht n' ms'. apply IH. exact Ht. }
      transitivity (sparse_pattern P (ds_close s) (map sann' inner) = inr ms).
      * rewrite <- HL. split; intros H; [|constructor; exact H]. inversion H as [? ? _ Hg|]; subst; [destruct (Hg inner s r); reflexivity|assumption].
      * destruct (sparse_pattern P (ds_close s) (map sann' inner)); split; congruence.
Qed.
Lemma pattern_error_spec close n ts ms : pattern_error P close ts ms <-> snd (sparse_pattern_value P close n (map sann' ts)) = inr ms.
Proof. apply (pattern_error_upto (stream_size (map erase ts))). lia. Qed.

(** ** Loops *)
Lemma is_word_erase x t : is_word x (erase t) = true <-> erase t = TIdent x.
Proof. apply is_word_spec. Qed.
Lemma loop_alias_good t r al : loop_alias_at P (erase t) al <-> sparse_loop_alias P (sann' t) r = inl al.
Proof.
  rewrite (loop_alias_spec P hf), (loop_alias_erase P (sann' t) r (ann P hf (erase t)) (ann_sim P SP hf HS t)).
  destruct (sparse_loop_alias P (sann' t) r); cbn; split; congruence.
Qed.
Lemma loop_alias_bad t r ms : loop_alias_error P (t :: r) ms <-> sparse_loop_alias P (sann' t) (map sann' r) = inr ms.
Proof.
  assert (Hno : (forall inner s r', t :: r <> SGroup Paren inner s :: r') -> ~ at_ident P (map erase (t :: r)) ->
    loop_alias_error P (t :: r) ms <-> inr (A := loop_alias) [expected_ident call_site (stoks (map sann' (t :: r)))] = inr ms).
  { intros Hg Hi. rewrite stoks_sann, expected_ident_no_name. split; intros H.
    - inversion H as [? _ _|inner s r' ms' _]; subst; [reflexivity|destruct (Hg inner s r); congruence].
    - injection H as <-. apply no_alias; assumption. }
  change (sann' t :: map sann' r) with (map sann' (t :: r)). unfold sparse_loop_alias. rewrite sann_tok.
  destruct t as [x s|c j s|l s|d inner s].
  - destruct (ident_allowed P x) eqn:E.
    + split; [|discriminate]. intros H. inversion H as [? Hi _|]; subst. destruct Hi. exists x, (map erase r). auto.
    + apply Hno; [discriminate|]. intros (? & ? & H & H'). injection H as <- _. congruence.
  - apply Hno; [discriminate|]. intros (? & ? & H & H'). discriminate.
  - apply Hno; [discriminate|]. intros (? & ? & H & H'). discriminate.
  - destruct d; try (apply Hno; [discriminate|]; intros (? & ? & H & H'); discriminate).
    pose proof (pattern_error_spec call_site 0%N (SGroup Paren inner s :: r)) as HP. cbn [map sparse_pattern_value sann s_tok s_pattern snd] in HP.
    change (s_pattern (sann' (SGroup Paren inner s))) with (sparse_pattern P (ds_close s) (map sann' inner)).
    assert (HE : forall ms', pattern_error P call_site (SGroup Paren inner s :: r) ms' <-> sparse_pattern P (ds_close s) (map sann' inner) = inr ms').
    { intros ms'. rewrite HP. destruct (sparse_pattern P (ds_close s) (map sann' inner)); split; congruence. }
    destruct (sparse_pattern P (ds_close s) (map sann' inner)) as [t|e].
    + split; [|discriminate]. intros H. inversion H as [? _ Hg|? ? ? ms' Hp]; subst; [destruct (Hg inner s r); reflexivity|]. apply HE in Hp. discriminate.
    + rewrite stoks_cons_sann, place_here, expected_ident_no_name. cbn [combine_errors List.concat here]. rewrite app_nil_r. split; intros H.
      * inversion H as [? _ Hg|? ? ? ms' Hp]; subst; [destruct (Hg inner s r); reflexivity|]. apply HE in Hp. injection Hp as ->. reflexivity.
      * injection H as <-. apply (wrong_alias P inner s r e). apply HE. reflexivity.
Qed.

Lemma source_value_inl n l : exists a, snd (sparse_source_value P SP hf n l) = inl a.
Proof.
  assert (E : forall n, exists a, snd (match sparse_expr_ P SP hf n l with (n', (e, k, u)) => (n', inl (B := messages) (SLSValue e, u, k)) end) = inl a).
  { intros n'. destruct (sparse_expr_ P SP hf n' l) as [n2 [[e k] u]]. eexists. reflexivity. }
  unfold sparse_source_value. destruct l as [|[[x p|c j p|q p|[| | |] q p] a1 a2 a3] r]; try apply E.
  cbn [s_tuple]. destruct (a2 n) as [n' [[t u]|e]]; [eexists; reflexivity|apply E].
Qed.
Lemma source_item ts n k : (exists x, source_at P hf (map erase ts) x k) <->
  exists a, snd (sparse_source_value P SP hf n (map sann' ts)) = inl (a, k).
Proof.
  pose proof (source_spec P hf (map erase ts) n) as H.
  rewrite (source_value_erase P SP hf HS n _ _ (anns_sim P SP hf HS ts)) in H.
  destruct (sparse_source_value P SP hf n (map sann' ts)) as [n' [[a j]|e]]; cbn [second snd fst forget_sum] in H; cbn [snd]; split.
  - intros (x & Hx). apply H in Hx as (? & E & _). injection E as _ <-. eauto.
  - intros (b & E). injection E as -> ->. eexists. apply H. eauto.
  - intros (x & Hx). apply H in Hx as (? & E & _). discriminate.
  - intros (b & E). discriminate.
Qed.
Definition values_error (s : delim_span) := list_error (ds_close s) (fun ts k => exists x, source_at P hf ts x k) (fun _ _ => False).
Lemma source_list_bad inner s n ms : values_error s inner ms <-> snd (sparse_source_list P SP hf n (sann' (SGroup Bracket inner s))) = inr ms.
Proof.
  unfold sparse_source_list. cbn [sann s_tok].
  assert (H := list_error_spec (ds_close s) (sparse_source_value P SP hf) (fun ts k => exists x, source_at P hf ts x k) (fun _ _ => False)
    (stream_size (map erase inner)) (fun ts _ _ n k => source_item ts n k)).
  assert (HB : forall ts, ts <> [] -> stream_size (map erase ts) <= stream_size (map erase inner) -> forall n ms,
    False <-> snd (sparse_source_value P SP hf n (map sann' ts)) = inr ms).
  { intros ts _ _ n' ms'. split; [contradiction|]. destruct (source_value_inl n' (map sann' ts)) as (a & ->). discriminate. }
  specialize (H HB inner (le_n _) n ms). unfold values_error. rewrite H.
  destruct (sparse_terminated (ds_close s) (sparse_source_value P SP hf) (map sann' inner) None n) as [n' [l|e]]; cbn; split; congruence.
Qed.
Lemma source_list_good inner s n : (exists l, listed (source_at P hf) (map erase inner) l) <->
  exists x, snd (sparse_source_list P SP hf n (sann' (SGroup Bracket inner s))) = inl x.
Proof.
  pose proof (source_list_spec P hf (map erase inner) n) as H.
  change (ann P hf (TGroup Bracket (map erase inner))) with (ann P hf (erase (SGroup Bracket inner s))) in H.
  rewrite (source_list_erase P SP hf HS n (sann' (SGroup Bracket inner s)) _ (ann_sim P SP hf HS _)) in H. cbn [second snd] in H.
  destruct (snd (sparse_source_list P SP hf n (sann' (SGroup Bracket inner s)))) as [x|e]; cbn [forget_sum] in H; split.
  - eauto.
  - intros _. destruct (proj2 (H _) (ex_intro _ _ (conj eq_refl eq_refl))) as (l & Hl & _). eauto.
  - intros (l & Hl). destruct (proj1 (H _) (ex_intro _ l (conj Hl eq_refl))) as (? & E & _). discriminate.
  - intros (x & E). discriminate.
Qed.

Lemma loops_error_spec ts : forall n ms, loops_error P hf ts ms <-> snd (sparse_loops P SP hf (map sann' ts) n) = inr ms.
Proof.
  remember (List.length ts) as len eqn:Hlen. revert ts Hlen. induction len as [len IH] using lt_wf_ind. intros ts Hlen n ms.
  destruct ts as [|f r0]; [split; [intros H; inversion H|discriminate]|]. cbn [map sparse_loops]. rewrite sann_tok.
  destruct (is_word (txt "for") (erase f)) eqn:Ef.
  2:{ split; [|discriminate]. intros H. assert (Hf : erase f = TIdent (txt "for")) by (inversion H; assumption). apply is_word_erase in Hf. congruence. }
  apply is_word_erase in Ef. destruct r0 as [|pat r1].
  { cbn [map]. rewrite expected_ident_no_name. split; intros H.
    - inversion H as [? ? ? _ Ha| | | |]; subst. inversion Ha; subst. reflexivity.
    - injection H as <-. apply wrong_pattern; [exact Ef|]. apply no_alias; [intros (? & ? & E & _); discriminate|discriminate]. }
  cbn [map]. pose proof (loop_alias_good pat (map sann' r1)) as Hg. pose proof (loop_alias_bad pat r1) as Hb.
  destruct (sparse_loop_alias P (sann' pat) (map sann' r1)) as [al|e].
  2:{ cbn [snd]. transitivity (loop_alias_error P (pat :: r1) ms).
      - split; intros H; [|apply wrong_pattern; assumption].
        inversion H as [? ? ? _ Ha|? ? al ? _ Ha|? ? al ? ? _ Ha|? ? al ? ? ? ? ? _ Ha|? ? al ? ? ? ? ? ? _ Ha]; subst; [exact Ha|apply Hg in Ha; discriminate..].
      - rewrite Hb. split; intros H; injection H as ->; reflexivity. }
  assert (Hal : loop_alias_at P (erase pat) al) by (apply Hg; reflexivity).
  assert (Hna : forall ms, ~ loop_alias_error P (pat :: r1) ms) by (intros ms' Ha; apply Hb in Ha; discriminate).
  clear Hg Hb. destruct r1 as [|kw r2].
  { cbn [map snd]. unfold expected_word. rewrite error_at_says. split; intros H.
    - inversion H as [? ? ? _ Ha|? ? ? ? _ _ _| | |]; subst; [destruct (Hna _ Ha)|]. reflexivity.
    - injection H as <-. eapply (no_in P hf f pat al []); [exact Ef|exact Hal|discriminate]. }
  cbn [map]. rewrite sann_tok. destruct (is_word (txt "in") (erase kw)) eqn:Ek.
  2:{ cbn [snd]. unfold expected_word. rewrite error_at_says, stoks_cons_sann.
      assert (Hk : erase kw <> TIdent (txt "in")) by (intros E; apply is_word_erase in E; congruence). split; intros H.
      - inversion H as [? ? ? _ Ha|? ? ? ? _ _ _|? ? ? ? ? _ _ Hk'|? ? ? ? ? ? ? ? _ _ Hk'|? ? ? ? ? ? ? ? ? _ _ Hk']; subst; [destruct (Hna _ Ha)|reflexivity|contradiction..].
      - injection H as <-. eapply (no_in P hf f pat al (kw :: r2)); [exact Ef|exact Hal|]. intros t r' E. injection E as <- _. exact Hk. }
  apply is_word_erase in Ek. assert (Hni : forall r, ~ (forall t r', kw :: r = t :: r' -> erase t <> TIdent (txt "in"))) by (intros r H; apply (H kw r); auto).
  destruct r2 as [|src r].
  { cbn [map snd]. rewrite error_at_says. split; intros H.
    - inversion H as [? ? ? _ Ha|? ? ? ? _ _ Hk|? ? ? ? ? _ _ Hk'| |]; subst; [destruct (Hna _ Ha)|destruct (Hni [] Hk)|reflexivity].
    - injection H as <-. eapply (no_brackets P hf f pat al kw []); [exact Ef|exact Hal|exact Ek|discriminate]. }
  cbn [map].
  assert (Hnb : (forall inner s, src <> SGroup Bracket inner s) ->
    loops_error P hf (f :: pat :: kw :: src :: r) ms <-> snd (n, inr (A := list sloop_item * list satok * option syn_message) [error_at call_site [src] (txt "expected square brackets")]) = inr ms).
  { intros Hs. rewrite error_at_says. cbn [snd]. assert (Hh : here call_site [src] = here call_site (src :: r)) by (destruct src; reflexivity). split; intros H.
    - inversion H as [? ? ? _ Ha|? ? ? ? _ _ Hk|? ? ? ? ? _ _ Hk'|? ? ? ? inner s ? ? _ _ Hk'|? ? ? ? inner s ? ? ? _ _ Hk']; subst; [destruct (Hna _ Ha)|destruct (Hni _ Hk)| |destruct (Hs inner s); reflexivity..].
      rewrite Hh. reflexivity.
    - injection H as <-. eapply (no_brackets P hf f pat al kw (src :: r)); [exact Ef|exact Hal|exact Ek|]. intros inner s r' E. injection E as -> _. destruct (Hs inner s); reflexivity. }
  destruct src as [x s|c j s|l s|d inner s]; [apply Hnb; discriminate..|]. destruct d; try (apply Hnb; discriminate). clear Hnb.
  pose proof (source_list_good inner s n) as Hg. pose proof (source_list_bad inner s n) as Hb.
  destruct (sparse_source_list P SP hf n (sann' (SGroup Bracket inner s))) as [n1 [[vals u]|e]]; cbn [snd] in Hg, Hb.
  - destruct (proj2 Hg (ex_intro _ _ eq_refl)) as (l & Hl). assert (Hnv : forall ms, ~ values_error s inner ms) by (intros ms' Hv; apply Hb in Hv; discriminate).
    assert (Hlt : List.length r < len) by (subst len; cbn; lia). specialize (IH _ Hlt r eq_refl n1 ms).
    transitivity (loops_error P hf r ms).
    + split; intros H; [|eapply wrong_loop_later; eassumption].
      inversion H as [? ? ? _ Ha|? ? ? ? _ _ Hk|? ? ? ? ? _ _ _ Hi|? ? ? ? ? ? ? ? _ _ _ Hv|? ? ? ? ? ? ? ? ? _ _ _ Hi Hr]; subst;
        [destruct (Hna _ Ha)|destruct (Hni _ Hk)|destruct (Hi inner s r); reflexivity|destruct (Hnv _ Hv)|exact Hr].
    + rewrite IH. destruct (sparse_loops P SP hf (map sann' r) n1) as [n2 [[[items rest] u']|e]]; cbn [snd]; split; congruence.
  - assert (Hnl : forall l, ~ listed (source_at P hf) (map erase inner) l) by (intros l Hl; destruct (proj1 Hg (ex_intro _ l Hl)); discriminate).
    cbn [snd]. transitivity (values_error s inner ms).
    + split; intros H; [|eapply wrong_values; eassumption].
      inversion H as [? ? ? _ Ha|? ? ? ? _ _ Hk|? ? ? ? ? _ _ _ Hi|? ? ? ? ? ? ? ? _ _ _ Hv|? ? ? ? ? ? ? ? ? _ _ _ Hi Hr]; subst;
        [destruct (Hna _ Ha)|destruct (Hni _ Hk)|destruct (Hi inner s r); reflexivity|exact Hv|destruct (Hnl _ Hi)].
    + rewrite Hb. split; intros H; injection H as ->; reflexivity.
Qed.

(** ** Definitions *)
Lemma separates_comma c t : separates c t -> is_separator t = true /\ is_comma t = c.
Proof. intros []; split; reflexivity. Qed.
Lemma separator_separates t : is_separator t = true -> separates (is_comma t) t.
Proof.
  destruct t as [x|c j|l|d l]; try discriminate. unfold is_separator, is_comma, is_semicolon, is_punct. intros H. apply orb_true_iff in H as [H|H].
  - rewrite H. apply N.eqb_eq in H. subst c. constructor.
  - destruct (N.eqb 44 c) eqn:E; [apply N.eqb_eq in E; subst c; constructor|]. apply N.eqb_eq in H. subst c. constructor.
Qed.
Lemma not_separator t : is_separator t = false <-> forall c, ~ separates c t.
Proof.
  split; [intros H c Hc; apply separates_comma in Hc as [E _]; congruence|]. intros H. destruct (is_separator t) eqn:E; [|reflexivity].
  destruct (H _ (separator_separates _ E)).
Qed.
Lemma is_equals_erase t : is_equals (erase t) = true <-> exists j, erase t = TPunct 61%N j.
Proof.
  destruct (erase t) as [x|c j|l|d l]; unfold is_equals, is_punct; split; try discriminate; try (intros (? & H); discriminate).
  - intros H. apply N.eqb_eq in H. subst c. eauto.
  - intros (? & H). injection H as -> _. reflexivity.
Qed.
Lemma expr_at vs n n' e k u : sparse_expr_ P SP hf n (map sann' vs) = (n', (e, k, u)) ->
  forall e0 k0 u0, reads P hf (map erase vs) e0 k0 u0 <-> e0 = SpecPrograms.erase (erase_expr e) /\ k0 = k /\ u0 = is_some u.
Proof.
  intros E e0 k0 u0. rewrite (reads_spec P hf (map erase vs) n), (expr_erase P SP hf HS n _ _ (anns_sim P SP hf HS vs)), E.
  cbn [second snd fst er_e er_value]. split; [intros H; injection H; auto|intros (-> & -> & ->); reflexivity].
Qed.
Lemma at_ident_peek ts : at_ident P (map erase ts) <-> speek_ident P (map sann' ts) = true.
Proof.
  destruct ts as [|[x s|c j s|l s|[| | |] l s] r]; cbn; split; try discriminate; try (intros (? & ? & H & _); discriminate).
  - intros (? & ? & H & H'). injection H as <- _. exact H'.
  - intros H. exists x, (map erase r). auto.
Qed.

Lemma spec_item_cases n ts :
  match snd (sparse_spec_item P SP hf n (map sann' ts)) with
  | inr ms => (forall ms', definition_error P hf ts ms' <-> ms' = ms) /\
      (forall after, defined P hf ts after -> exists t r, after = t :: r /\ forall c, ~ separates c (erase t))
  | inl (_, k, _) => (forall ms, ~ definition_error P hf ts ms) /\ (forall after, defined P hf ts after <-> after = skipn k (tl ts)) /\
      (skipn k (tl ts) = [] \/ exists c t r, skipn k (tl ts) = t :: r /\ separates c (erase t))
  end.
Proof.
  assert (Hno : ~ at_ident P (map erase ts) ->
    (forall ms', definition_error P hf ts ms' <-> ms' = [expected_ident call_site (stoks (map sann' ts))]) /\
    (forall after, defined P hf ts after -> exists t r, after = t :: r /\ forall c, ~ separates c (erase t))).
  { intros Hi. rewrite stoks_sann, expected_ident_no_name. split.
    - intros ms'. split; [|intros ->; apply no_definition, Hi]. intros H.
      inversion H as [? _|x s r Hx _|x s q j vs e k u t r Hx _ _ _ _]; subst; [reflexivity|destruct Hi; exists x; eexists; split; [reflexivity|exact Hx]..].
    - intros after H. inversion H as [x s q j vs e k u Hx _ _]; subst. destruct Hi. exists x. eexists. split; [reflexivity|exact Hx]. }
  destruct ts as [|t0 r0]; [cbn [map sparse_spec_item snd]; apply Hno; intros (? & ? & H & _); discriminate|].
  destruct t0 as [x s|c j s|l s|d inner s]; try (cbn [map sparse_spec_item snd sann s_tok]; apply Hno; intros (? & ? & H & _); discriminate).
  2:{ destruct d; cbn [map sparse_spec_item snd sann s_tok]; apply Hno; intros (? & ? & H & _); discriminate. }
  cbn [map sparse_spec_item sann s_tok]. destruct (ident_allowed P x) eqn:Ex.
  2:{ cbn [snd]. apply Hno. intros (? & ? & H & H'). injection H as <- _. congruence. }
  clear Hno. assert (Hi : at_ident P (map erase (SIdent x s :: r0))) by (exists x; eexists; split; [reflexivity|exact Ex]).
  assert (Heq : (forall t r' j, r0 = t :: r' -> erase t <> TPunct 61%N j) ->
    (forall ms', definition_error P hf (SIdent x s :: r0) ms' <-> ms' = [expected_punct "=" call_site (stoks (map sann' r0))]) /\
    (forall after, defined P hf (SIdent x s :: r0) after -> exists t r, after = t :: r /\ forall c, ~ separates c (erase t))).
  { intros He. rewrite stoks_sann, expected_punct_no_punct. split.
    - intros ms'. split; [|intros ->; apply no_equals; assumption]. intros H.
      inversion H as [? Hn|x' s' r _ _|x' s' q j vs e k u t r _ Hq _ _ _]; subst; [destruct (Hn Hi)|reflexivity|destruct (He q vs j eq_refl Hq)].
    - intros after H. inversion H as [x' s' q j vs e k u _ Hq _]; subst. destruct (He q vs j eq_refl Hq). }
  destruct r0 as [|q vs]; [cbn [map snd]; apply Heq; discriminate|]. cbn [map]. rewrite sann_tok. destruct (is_equals (erase q)) eqn:Eq.
  2:{ cbn [snd]. apply Heq. intros t r' j E Hq. injection E as <- _. assert (is_equals (erase q) = true) by (apply is_equals_erase; eauto). congruence. }
  clear Heq. apply is_equals_erase in Eq as (j & Eq).
  assert (Hne : ~ (forall t r' j, q :: vs = t :: r' -> erase t <> TPunct 61%N j)) by (intros H; exact (H q vs j eq_refl Eq)).
  destruct (sparse_expr_ P SP hf n (map sann' vs)) as [n' [[e k] u]] eqn:Ee. pose proof (expr_at vs n n' e k u Ee) as HR.
  assert (HD : forall after, defined P hf (SIdent x s :: q :: vs) after <-> after = skipn k vs).
  { intros after. split.
    - intros H. inversion H as [? ? ? ? ? e' k' u' _ _ Hr]; subst. apply HR in Hr as (_ & -> & _). reflexivity.
    - intros ->. eapply defined_; [exact Ex|exact Eq|]. apply HR. auto. }
  rewrite skipn_sann, stoks_sann. cbn [snd]. destruct (skipn k vs) as [|t r] eqn:Es; cbn [map ends].
  - cbn [tl skipn]. rewrite Es. split; [|split; [|left; reflexivity]].
    + intros ms H. inversion H as [? Hn|? ? ? _ He|? ? ? ? ? e' k' u' t r _ _ Hr Hs _]; subst; [destruct (Hn Hi)|destruct (Hne He)|]. apply HR in Hr as (_ & -> & _). congruence.
    + exact HD.
  - destruct (is_separator (erase t)) eqn:Et.
    + cbn [tl skipn]. rewrite Es. apply separator_separates in Et. split; [|split; [exact HD|right; exists (is_comma (erase t)), t, r; auto]].
      intros ms H. inversion H as [? Hn|? ? ? _ He|? ? ? ? ? e' k' u' t' r' _ _ Hr Hs Hc]; subst; [destruct (Hn Hi)|destruct (Hne He)|].
      apply HR in Hr as (_ & -> & _). rewrite Es in Hs. injection Hs as <- <-. destruct (Hc _ Et).
    + assert (Hc := proj1 (not_separator _) Et). split.
      * intros ms'. split.
        -- intros H. inversion H as [? Hn|? ? ? _ He|? ? ? ? ? e' k' u' t' r' _ _ Hr Hs _]; subst; [destruct (Hn Hi)|destruct (Hne He)|].
           apply HR in Hr as (_ & -> & _). rewrite Es in Hs. injection Hs as <- <-.
           unfold expected_separator. cbn [combine_errors List.concat app]. rewrite place_here, !expected_punct_no_punct. reflexivity.
        -- intros ->. unfold expected_separator. cbn [combine_errors List.concat app]. rewrite place_here, !expected_punct_no_punct.
           eapply no_separator; [exact Ex|exact Eq|apply HR; auto|exact Es|exact Hc].
      * intros after H. apply HD in H. subst after. eauto.
Qed.

Definition spec_after (used : option bool) (n : N) (l : list satok) : N * (list sitem * option bool * list satok * option syn_message + messages) :=
  sparse_spec P SP hf l (Some 0) used n.
Lemma spec_skip k : forall l used n, sparse_spec P SP hf l (Some k) used n = spec_after used n (skipn k l).
Proof. induction k as [|k IH]; intros [|t r] used n; try reflexivity. cbn [sparse_spec skipn]. apply IH. Qed.

Lemma definitions_error_spec ts : forall used n ms, definitions_error P hf used ts ms <-> snd (sparse_spec P SP hf (map sann' ts) None used n) = inr ms.
Proof.
  remember (List.length ts) as len eqn:Hlen. revert ts Hlen. induction len as [len IH] using lt_wf_ind. intros ts Hlen used n ms.
  pose proof (spec_item_cases n ts) as HI. destruct ts as [|t0 r0].
  { cbn [map sparse_spec_item snd sparse_spec] in *. destruct HI as [HE HD]. change (stoks []) with (@nil stt) in HE. split; intros H.
    - inversion H as [? ? ? Hd|? ? ? ? ? Hd|? ? ? ? ? ? Hd]; subst; [|inversion Hd..]. apply HE in Hd. subst. reflexivity.
    - injection H as <-. apply wrong_definition, HE. reflexivity. }
  cbn [map sparse_spec]. change (sann' t0 :: map sann' r0) with (map sann' (t0 :: r0)).
  destruct (sparse_spec_item P SP hf n (map sann' (t0 :: r0))) as [n1 [[[it k] u]|e]]; cbn [snd] in HI.
  - destruct HI as (HE & HD & Hsep). cbn [tl] in HD, Hsep. rewrite spec_skip, skipn_sann.
    assert (Hlen' : List.length (skipn k r0) < len) by (subst len; rewrite skipn_length; cbn [List.length]; lia).
    destruct Hsep as [Hs|(c & t & r & Hs & Hc)]; rewrite Hs in *; cbn [map spec_after].
    + unfold spec_after. cbn [sparse_spec snd]. split; [|discriminate]. intros H.
      inversion H as [? ? ? Hd|? ? ? ? ? Hd|? ? ? ? ? ? Hd]; subst; [destruct (HE _ Hd)|apply HD in Hd; discriminate..].
    + unfold spec_after. cbn [sparse_spec]. rewrite sann_tok. destruct (separates_comma _ _ Hc) as [E1 E2]. rewrite E1, E2.
      assert (Huse : forall c' t' r', defined P hf (t0 :: r0) (t' :: r') -> separates c' (erase t') -> t' = t /\ r' = r /\ c' = c).
      { intros c' t' r' Hd Hc'. apply HD in Hd. injection Hd as -> ->. apply separates_comma in Hc' as [_ Hc']. repeat split. congruence. }
      destruct (match used with Some u0 => negb (eqb u0 c) | None => false end) eqn:Em.
      * destruct used as [c'|]; [|discriminate]. apply negb_true_iff, eqb_false_iff in Em. rewrite stoks_sann, error_at_says. cbn [snd]. split; intros H.
        -- inversion H as [? ? ? Hd|? ? ? ? ? Hd Hc' Hne|? ? ? ? ? ? Hd Hc' Hu]; subst; [destruct (HE _ Hd)| |]; destruct (Huse _ _ _ Hd Hc') as (-> & -> & ->); [reflexivity|].
           destruct Hu as [Hu|Hu]; [discriminate|injection Hu as ->; contradiction].
        -- injection H as <-. eapply mixed_separators; [apply HD; reflexivity|exact Hc|exact Em].
      * assert (Hu : used = None \/ used = Some c).
        { destruct used as [c'|]; [right|left; reflexivity]. apply negb_false_iff, eqb_prop in Em. congruence. }
        assert (Hr : List.length r < len) by (cbn [List.length] in Hlen'; lia).
        destruct (speek_ident P (map sann' r)) eqn:Ep.
        -- specialize (IH _ Hr r eq_refl (Some c) n1 ms). transitivity (definitions_error P hf (Some c) r ms).
           ++ split; intros H.
              ** inversion H as [? ? ? Hd|? c' ? ? ? Hd Hc' Hne|? ? ? ? ? ? Hd Hc' Hu' Hat Hl]; subst; [destruct (HE _ Hd)| |]; destruct (Huse _ _ _ Hd Hc') as (-> & -> & ->); [|exact Hl].
                 destruct Hu as [Hu|Hu]; [discriminate|injection Hu as ->; contradiction].
              ** eapply wrong_definition_later; [apply HD; reflexivity|exact Hc|exact Hu|apply at_ident_peek, Ep|exact H].
           ++ rewrite IH. destruct (sparse_spec P SP hf (map sann' r) None (Some c) n1) as [n2 [[[[items used'] rest'] u']|e]]; cbn [snd]; split; congruence.
        -- cbn [snd]. split; [|discriminate]. intros H.
           inversion H as [? ? ? Hd|? c' ? ? ? Hd Hc' Hne|? ? ? ? ? ? Hd Hc' Hu' Hat Hl]; subst; [destruct (HE _ Hd)| |]; destruct (Huse _ _ _ Hd Hc') as (-> & -> & ->).
           ++ destruct Hu as [Hu|Hu]; [discriminate|injection Hu as ->; contradiction].
           ++ apply at_ident_peek in Hat. congruence.
  - destruct HI as [HE HD]. cbn [snd]. split; intros H.
    + inversion H as [? ? ? Hd|? ? ? ? ? Hd Hc _|? ? ? ? ? ? Hd Hc _]; subst; [apply HE in Hd; subst; reflexivity| |];
        destruct (HD _ Hd) as (t' & r' & E & Hn); injection E as <- <-; destruct (Hn _ Hc).
    + injection H as <-. apply wrong_definition, HE. reflexivity.
Qed.

(** ** The header *)
Lemma suffix_eq {A} (x : list A) : forall a y b, x ++ a = y ++ b -> List.length a = List.length b -> a = b.
Proof.
  induction x as [|h x IH]; intros a [|h' y] b E L; cbn in E.
  - exact E.
  - subst a. cbn in L. rewrite app_length in L. lia.
  - subst b. cbn in L. rewrite app_length in L. lia.
  - injection E as _ E. exact (IH _ _ _ E L).
Qed.
Lemma same_suffix (x a y b : list stt) : x ++ a = y ++ b -> map erase a = map erase b -> a = b.
Proof. intros E M. apply (suffix_eq _ _ _ _ E). rewrite <- (map_length erase a), M. apply map_length. Qed.
Lemma loops_suffix : forall m l, List.length l <= m -> forall n items rest u, snd (sparse_loops P SP hf l n) = inl (items, rest, u) -> exists before, l = before ++ rest.
Proof.
  induction m as [|m IH]; intros l Hm n items rest u H.
  { destruct l; [|cbn in Hm; lia]. injection H as _ <- _. exists []. reflexivity. }
  destruct l as [|f r0]; [injection H as _ <- _; exists []; reflexivity|]. cbn [sparse_loops] in H.
  destruct (is_word _ _); [|injection H as _ <- _; exists []; reflexivity].
  destruct r0 as [|pt r1]; [discriminate|]. destruct (sparse_loop_alias P pt r1) as [al|e]; [|discriminate]. destruct r1 as [|kw r2]; [discriminate|].
  destruct (is_word _ _); [|discriminate]. destruct r2 as [|src r]; [discriminate|].
  destruct (sparse_source_list P SP hf n src) as [n1 [[vals w]|e]]; [|discriminate]. assert (Hr : List.length r <= m) by (cbn in Hm; lia).
  specialize (IH r Hr n1). destruct (sparse_loops P SP hf r n1) as [n2 [[[items' rest'] w']|e]]; [|discriminate]. cbn [snd] in *. injection H as _ <- _.
  destruct (IH _ _ _ eq_refl) as (before & ->). exists (f :: pt :: kw :: src :: before). reflexivity.
Qed.
Lemma spec_suffix l : forall skip used n items used' rest u,
  snd (sparse_spec P SP hf l skip used n) = inl (items, used', rest, u) -> exists before, l = before ++ rest.
Proof.
  induction l as [|t r IH]; intros skip used n items used' rest u H.
  { destruct skip; [|discriminate]. exists []. destruct n0; injection H as _ _ <- _; reflexivity. }
  cbn [sparse_spec] in H. destruct skip as [[|k]|].
  - destruct (is_separator _); [|discriminate]. destruct (match used with Some _ => _ | None => _ end); [discriminate|].
    destruct (speek_ident P r).
    + apply IH in H as (before & ->). exists (t :: before). reflexivity.
    + injection H as _ _ <- _. exists [t]. reflexivity.
  - apply IH in H as (before & ->). exists (t :: before). reflexivity.
  - destruct (sparse_spec_item P SP hf n (t :: r)) as [n1 [[[item k] w]|e]]; [|discriminate]. specialize (IH (Some k) used n1).
    destruct (sparse_spec P SP hf r (Some k) used n1) as [n2 [[[[its us] r'] w']|e]]; [|discriminate]. cbn [snd] in *. injection H as _ _ <- _.
    destruct (IH _ _ _ _ eq_refl) as (before & ->). exists (t :: before). reflexivity.
Qed.
Lemma sann_suffix ts before rest : map sann' ts = before ++ rest -> exists before' rest', ts = before' ++ rest' /\ rest = map sann' rest'.
Proof.
  intros E. exists (firstn (List.length before) ts), (skipn (List.length before) ts). rewrite firstn_skipn. split; [reflexivity|].
  rewrite <- skipn_sann, E, skipn_app, skipn_all, Nat.sub_diag. reflexivity.
Qed.
Lemma sim_ann rest r : Forall2 sim (map sann' rest) (map (ann P hf) r) -> r = map erase rest.
Proof. intros H. apply sim_toks in H. rewrite stoks_sann, toks_ann in H. exact H. Qed.

Lemma loops_cases n ts :
  match snd (sparse_loops P SP hf (map sann' ts) n) with
  | inr _ => forall loops u rest, ~ loops_at P hf (map erase ts) loops u rest
  | inl (items, l, u) => exists before rest, ts = before ++ rest /\ l = map sann' rest /\
      forall loops u' rest', loops_at P hf (map erase ts) loops u' rest' <->
        loops = map (map_loop SpecPrograms.erase) (map plain_loop items) /\ u' = is_some u /\ rest' = map erase rest
  end.
Proof.
  destruct (loops_erase P SP hf HS _ _ _ (le_n _) (anns_sim P SP hf HS ts) n) as (_ & Hr). pose proof (loops_spec P hf (map erase ts) n) as HL.
  pose proof (loops_tail P hf (map erase ts) n) as HT. pose proof (loops_suffix _ (map sann' ts) (le_n _) n) as HX.
  destruct (snd (parse_loops P hf _ n)) as [[[its l'] w]|], (snd (sparse_loops P SP hf _ n)) as [[[items l] u]|ms]; try contradiction.
  - destruct Hr as (-> & Hs & ->). destruct (HX _ _ _ eq_refl) as (b & Eb). apply sann_suffix in Eb as (before & rest & Ets & ->).
    destruct (HT _ _ _ eq_refl) as (r & ->). apply sim_ann in Hs. subst r. exists before, rest. split; [exact Ets|]. split; [reflexivity|].
    intros loops u' rest'. rewrite HL. split.
    + intros (x & E & Ex). injection E as <-. cbn [er_loops] in Ex. injection Ex as <- El <-. apply ann_inj in El. auto.
    + intros (-> & -> & ->). eexists. split; reflexivity.
  - intros loops u rest H. apply HL in H as (x & E & _). discriminate.
Qed.

Lemma header_error_inv ts ms : header_error P hf ts ms -> loops_error P hf ts ms \/
  exists b r lo u, ts = b ++ r /\ loops_at P hf (map erase ts) lo u (map erase r) /\ at_ident P (map erase r) /\ definitions_error P hf None r ms.
Proof. intros [? ? H|b r lo u ? H Ha Hd]; [left; exact H|right; exists b, r, lo, u; auto]. Qed.
Lemma header_cases n ts :
  match sparse_header P SP hf n (map sann' ts) with
  | inr ms => (forall ms', header_error P hf ts ms' <-> ms' = ms) /\ forall loops spec u rest, ~ header_at P hf (map erase ts) loops spec u rest
  | inl (lo, sp, l, u) => (forall ms, ~ header_error P hf ts ms) /\ exists before rest, ts = before ++ rest /\ l = map sann' rest /\
      forall loops spec u' rest', header_at P hf (map erase ts) loops spec u' rest' <->
        loops = option_map (map (map_loop SpecPrograms.erase)) (option_map (map plain_loop) lo) /\
        spec = option_map (map_spec SpecPrograms.erase) (option_map plain_spec sp) /\ u' = is_some u /\ rest' = map erase rest
  end.
Proof.
  assert (HH := header_erase P SP hf HS n _ _ (anns_sim P SP hf HS ts)). pose proof (header_spec P hf n (map erase ts)) as HA. pose proof (header_tail P hf n (map erase ts)) as HT.
  assert (HX : forall lo sp l u, sparse_header P SP hf n (map sann' ts) = inl (lo, sp, l, u) -> exists b, map sann' ts = b ++ l).
  { intros lo sp l u. unfold sparse_header. pose proof (loops_suffix _ (map sann' ts) (le_n _) n) as HX. destruct (sparse_loops P SP hf _ n) as [n1 [[[items l1] u1]|ms]]; [|discriminate].
    destruct (HX _ _ _ eq_refl) as (b1 & E1). destruct (speek_ident P l1).
    - pose proof (spec_suffix l1 None None n1) as HX2. destruct (snd (sparse_spec P SP hf l1 None None n1)) as [[[[its us] l2] u2]|ms]; [|discriminate].
      intros H. injection H as _ _ <- _. destruct (HX2 _ _ _ _ eq_refl) as (b2 & E2). exists (b1 ++ b2). rewrite <- app_assoc, <- E2. exact E1.
    - intros H. injection H as _ _ <- _. eauto. }
  assert (HE : forall ms, header_error P hf ts ms <-> sparse_header P SP hf n (map sann' ts) = inr ms).
  { intros ms. unfold sparse_header. pose proof (loops_cases n ts) as HL. pose proof (fun ms => loops_error_spec ts n ms) as HLE.
    destruct (sparse_loops P SP hf _ n) as [n1 [[[items l1] u1]|e]]; cbn [snd] in HL, HLE.
    - destruct HL as (before & rest & Ets & -> & HL).
      assert (HD : header_error P hf ts ms <-> at_ident P (map erase rest) /\ definitions_error P hf None rest ms).
      { split.
        - intros H. apply header_error_inv in H as [Hl|(b & r & lo & u & Er' & Hlo & Ha & Hd)]; [apply HLE in Hl; discriminate|].
          apply HL in Hlo as (_ & _ & Er). rewrite Ets in Er'. symmetry in Er'. apply (same_suffix _ _ _ _ Er') in Er. subst r. auto.
        - intros (Ha & Hd). rewrite Ets. eapply wrong_definitions; [|exact Ha|exact Hd]. rewrite <- Ets. apply HL. auto. }
      rewrite HD, at_ident_peek. destruct (speek_ident P (map sann' rest)); [|split; [intros (? & _); discriminate|discriminate]].
      rewrite (definitions_error_spec rest None n1 ms). destruct (snd (sparse_spec P SP hf (map sann' rest) None None n1)) as [[[[its us] l2] u2]|e]; split; try discriminate; [intros (_ & H); discriminate|intros (_ & H); congruence|].
      intros H. injection H as <-. auto.
    - split.
      + intros H. apply header_error_inv in H as [Hl|(b & r & lo & u & Er' & Hlo & Ha & Hd)]; [apply HLE in Hl; congruence|]. destruct (HL _ _ _ Hlo).
      + intros H. injection H as <-. apply wrong_loops, HLE. reflexivity. }
  destruct (parse_header P hf n _) as [[[[lo' sp'] l'] w]|], (sparse_header P SP hf n _) as [[[[lo sp] l] u]|ms]; try contradiction.
  - split; [intros ms H; apply HE in H; discriminate|]. destruct HH as (-> & -> & Hs & ->). destruct (HX _ _ _ _ eq_refl) as (b & Eb). apply sann_suffix in Eb as (before & rest & Ets & ->).
    destruct (HT _ _ _ _ eq_refl) as (r & ->). apply sim_ann in Hs. subst r. exists before, rest. split; [exact Ets|]. split; [reflexivity|].
    intros loops spec u' rest'. rewrite HA. split.
    + intros (x & E & Ex). injection E as <-. cbn [er_header] in Ex. injection Ex as <- <- El <-. apply ann_inj in El. auto.
    + intros (-> & -> & -> & ->). eexists. split; reflexivity.
  - split; [intros ms'; rewrite HE; split; congruence|]. intros loops spec u rest H. apply HA in H as (x & E & _). discriminate.
Qed.

(** ** [compose!] *)
Lemma blocked_inv ts spec u r : blocked P hf ts spec u r -> exists before rest loops v block k w,
  ts = before ++ rest /\ header_at P hf (map erase ts) loops spec v (map erase rest) /\ pre_block P (map erase rest) = Some (block, k, w) /\ u = v || w /\ r = skipn k rest.
Proof. intros [before rest loops ? v block k w H Hb]. exists before, rest, loops, v, block, k, w. auto. Qed.
Lemma headed_inv ts loops spec u r : headed P hf ts loops spec u r -> exists before, ts = before ++ r /\ header_at P hf (map erase ts) loops spec u (map erase r).
Proof. intros [before rest ? ? v H]. exists before. auto. Qed.
Lemma func_error_inv ts ms : func_error P SP hf ts ms ->
  header_error P hf ts ms \/
  (exists before rest loops spec u, ts = before ++ rest /\ header_at P hf (map erase ts) loops spec u (map erase rest) /\
     pre_block P (map erase rest) = None /\ ms = block_error SP rest) \/
  (exists spec u s r c, blocked P hf ts spec u (s :: r) /\ separates c (erase s) /\ ~ agrees c spec /\ ms = [mixed r]) \/
  (exists spec t r, blocked P hf ts spec false (t :: r) /\ (forall c, ~ separates c (erase t)) /\ ms = [left_over t]) \/
  (exists spec s c t r, blocked P hf ts spec false (s :: t :: r) /\ separates c (erase s) /\ agrees c spec /\ ms = [left_over t]).
Proof.
  intros [? ? H|before rest loops spec u H Hb|? spec u s r c H Hc Hn|? spec t r H Hn|? spec s c t r H Hc Ha].
  - auto.
  - right; left. exists before, rest, loops, spec, u. auto.
  - right; right; left. exists spec, u, s, r, c. auto.
  - right; right; right; left. exists spec, t, r. auto.
  - right; right; right; right. exists spec, s, c, t, r. auto.
Qed.

Lemma func_unread_inv ts : func_unread P hf ts -> exists spec rest, blocked P hf ts spec true rest /\
  forall s r c, rest = s :: r -> separates c (erase s) -> agrees c spec.
Proof. intros [? spec rest H Ha]. eauto. Qed.
Definition settled (error : messages -> Prop) (unread : Prop) (r : sraw_ast (list pstmt) + messages) : Prop :=
  match r with
  | inl _ => (forall ms, ~ error ms) /\ ~ unread
  | inr ms => ((forall ms', error ms' <-> ms' = ms) /\ ~ unread) \/ ((forall ms', ~ error ms') /\ unread /\ exists m, ms = [m])
  end.
Lemma finish_ast sc u rest ast : sp_ast (finish sc u rest ast) =
  match u, rest with Some m, _ => inr [m] | None, t :: _ => inr [left_over t] | None, [] => inl ast end.
Proof. destruct u as [m|], rest as [|t r]; reflexivity. Qed.
Lemma separates_unique c c' t : separates c t -> separates c' t -> c' = c.
Proof. intros H H'. apply separates_comma in H as [_ H], H' as [_ H']. congruence. Qed.

Lemma func_settled n ts : settled (func_error P SP hf ts) (func_unread P hf ts) (sp_ast (sparse_func_macro P SP hf n ts)).
Proof.
  unfold sparse_func_macro. pose proof (header_cases n ts) as HC. destruct (sparse_header P SP hf n (map sann' ts)) as [[[[lo sp] l] u1]|ms].
  2:{ destruct HC as [HE HN]. left. split.
      - intros ms'. rewrite <- HE. split; [|apply wrong_header]. intros H.
        apply func_error_inv in H as [H|[(b & r & lo & sp & u & _ & H & _)|[(sp & u & s & r & c & H & _)|[(sp & t & r & H & _)|(sp & s & c & t & r & H & _)]]]]; [exact H|destruct (HN _ _ _ _ H)|..];
          apply blocked_inv in H as (b & r' & lo & v & bl & k & w & _ & H & _); destruct (HN _ _ _ _ H).
      - intros Hw. apply func_unread_inv in Hw as (sp & rest & H & _). apply blocked_inv in H as (b & r' & lo & v & bl & k & w & _ & H & _). destruct (HN _ _ _ _ H). }
  destruct HC as (HE & before & rest & Ets & -> & HA). rewrite stoks_sann.
  set (spec := option_map (map_spec SpecPrograms.erase) (option_map plain_spec sp)) in HA.
  assert (HR : forall b r loops spec' v, ts = b ++ r -> header_at P hf (map erase ts) loops spec' v (map erase r) -> r = rest /\ spec' = spec /\ v = is_some u1).
  { intros b r loops spec' v E H. apply HA in H as (_ & -> & -> & Er). rewrite Ets in E. symmetry in E. apply (same_suffix _ _ _ _ E) in Er. auto. }
  assert (Hh : header_at P hf (map erase (before ++ rest)) (option_map (map (map_loop SpecPrograms.erase)) (option_map (map plain_loop) lo)) spec (is_some u1) (map erase rest))
    by (rewrite <- Ets; apply HA; auto).
  pose proof (spanless_pre_block P SP HS rest) as HB. destruct (spre_block SP rest) as [[[block k] u2]|]; cbn [option_map erase_node] in HB; symmetry in HB.
  2:{ assert (HN : forall spec' u r, ~ blocked P hf ts spec' u r).
      { intros spec' u r H. apply blocked_inv in H as (b & r' & lo' & v & bl & k & w & E & H & Hb & _). destruct (HR _ _ _ _ _ E H) as (-> & _). congruence. }
      cbn [sp_ast ssyntax_error]. left. split.
      - intros ms'. split.
        + intros H. apply func_error_inv in H as [H|[(b & r & lo' & sp' & u & E & H & _ & ->)|[(sp' & u & s & r & c & H & _)|[(sp' & t & r & H & _)|(sp' & s & c & t & r & H & _)]]]];
            [destruct (HE _ H)| |destruct (HN _ _ _ H)..]. destruct (HR _ _ _ _ _ E H) as (-> & _). reflexivity.
        + intros ->. rewrite Ets. eapply no_block; [exact Hh|exact HB].
      - intros Hw. apply func_unread_inv in Hw as (sp' & rest' & H & _). exact (HN _ _ _ H). }
  assert (HK : forall spec' u r, blocked P hf ts spec' u r <-> spec' = spec /\ u = is_some u1 || is_some u2 /\ r = skipn k rest).
  { intros spec' u r. split.
    - intros H. apply blocked_inv in H as (b & r' & lo' & v & bl & k' & w & E & H & Hb & -> & ->). destruct (HR _ _ _ _ _ E H) as (-> & -> & ->).
      rewrite HB in Hb. injection Hb as <- <- <-. auto.
    - intros (-> & -> & ->). rewrite Ets. eapply blocked_; [exact Hh|exact HB]. }
  assert (HI : forall ms, func_error P SP hf ts ms -> exists s r, skipn k rest = s :: r /\
    ((exists c, separates c (erase s) /\ ~ agrees c spec /\ ms = [mixed r]) \/
     is_some u1 || is_some u2 = false /\ (forall c, ~ separates c (erase s)) /\ ms = [left_over s] \/
     is_some u1 || is_some u2 = false /\ exists c t r', r = t :: r' /\ separates c (erase s) /\ agrees c spec /\ ms = [left_over t])).
  { intros ms H. apply func_error_inv in H as [H|[(b & r & lo' & sp' & u & E & H & Hb & _)|[(sp' & u & s & r & c & H & Hc & Ha & ->)|[(sp' & t & r & H & Hc & ->)|(sp' & s & c & t & r & H & Hc & Ha & ->)]]]];
      [destruct (HE _ H)| |apply HK in H as (-> & Hu & Hs); symmetry in Hs; eexists; eexists; split; [exact Hs|]..].
    - destruct (HR _ _ _ _ _ E H) as (-> & _). congruence.
    - left. eauto.
    - right; left. auto.
    - right; right. split; [auto|]. exists c, t, r. auto. }
  assert (HU : func_unread P hf ts <-> is_some u1 || is_some u2 = true /\ forall s r c, skipn k rest = s :: r -> separates c (erase s) -> agrees c spec).
  { split.
    - intros Hw. apply func_unread_inv in Hw as (sp' & rest' & H & Ha). apply HK in H as (-> & E & ->). auto.
    - intros (E & Ha). econstructor; [apply HK; repeat split; symmetry; exact E|exact Ha]. }
  assert (Hout : forall u, is_some (first_some u1 u2) = u -> is_some u1 || is_some u2 = u) by (intros u <-; symmetry; apply is_some_first).
  destruct (skipn k rest) as [|t r] eqn:Ek.
  { rewrite finish_ast. destruct (first_some u1 u2) as [m|]; specialize (Hout _ eq_refl); cbn [is_some] in Hout; cbn [settled].
    - right. split; [|split; [|eauto]]; [|apply HU; split; [exact Hout|discriminate]]. intros ms H. apply HI in H as (s & r & H & _). discriminate.
    - split; [intros ms H; apply HI in H as (s & r & H & _); discriminate|]. intros H. apply HU in H as (H & _). congruence. }
  destruct (is_separator (erase t)) eqn:Et.
  2:{ assert (Hc := proj1 (not_separator _) Et). rewrite finish_ast. destruct (first_some u1 u2) as [m|]; specialize (Hout _ eq_refl); cbn [is_some] in Hout; cbn [settled].
      - right. split; [|split; [|eauto]].
        + intros ms H. apply HI in H as (s & r' & H & [(c & H' & _)|[(H' & _)|(H' & _)]]); [injection H as <- <-; destruct (Hc _ H')|congruence..].
        + apply HU. split; [exact Hout|]. intros s r' c H H'. injection H as <- <-. destruct (Hc _ H').
      - left. split.
        + intros ms. split.
          * intros H. apply HI in H as (s & r' & H & [(c & H' & _)|[(_ & _ & ->)|(_ & c & t' & r'' & _ & H' & _)]]); injection H as <- <-; [destruct (Hc _ H')|reflexivity|destruct (Hc _ H')].
          * intros ->. eapply left_after_block; [apply HK; repeat split; symmetry; exact Hout|exact Hc].
        + intros H. apply HU in H as (H & _). congruence. }
  apply separator_separates in Et as Hc. set (c := is_comma (erase t)) in Hc.
  assert (Hag : agrees c spec <-> strailing_mixed t sp = false).
  { unfold agrees, strailing_mixed, spec. fold c. destruct sp as [sp|]; cbn [option_map]; [|split; [reflexivity|discriminate]].
    assert (Hu : ss_comma sp <> None).
    { intros Hn. rewrite <- Ets in Hh. unfold spec in Hh. cbn [option_map] in Hh. apply unseparated_at_end in Hh; [|exact Hn].
      destruct rest; [rewrite skipn_nil in Ek; discriminate|discriminate]. }
    destruct sp as [its [c'|]]; [|destruct (Hu eq_refl)]. cbn [ss_comma plain_spec map_spec]. split.
    - intros H. specialize (H _ eq_refl). cbn in H. injection H as ->. apply xorb_nilpotent.
    - intros H sp' E. injection E as <-. cbn. apply xorb_eq in H. congruence. }
  destruct (strailing_mixed t sp).
  { rewrite error_at_says. cbn [sp_ast ssyntax_error settled]. left. split.
    - intros ms. split.
      + intros H. apply HI in H as (s & r' & H & [(c' & _ & _ & ->)|[(_ & Hn & _)|(_ & c' & t' & r'' & _ & H' & Ha & _)]]); injection H as <- <-; [reflexivity|destruct (Hn _ Hc)|].
        rewrite (separates_unique _ _ _ Hc H') in Ha. apply Hag in Ha. discriminate.
      + intros ->. eapply mixed_at_end; [apply HK; repeat split|exact Hc|]. intros Ha. apply Hag in Ha. discriminate.
    - intros H. apply HU in H as (_ & Ha). specialize (Ha _ _ _ eq_refl Hc). apply Hag in Ha. discriminate. }
  assert (Ha := proj2 Hag eq_refl). rewrite finish_ast. destruct (first_some u1 u2) as [m|]; specialize (Hout _ eq_refl); cbn [is_some] in Hout; cbn [settled].
  - right. split; [|split; [|eauto]].
    + intros ms H. apply HI in H as (s & r' & H & [(c' & H' & Hn & _)|[(H' & _)|(H' & _)]]); [|congruence..]. injection H as <- <-.
      rewrite (separates_unique _ _ _ Hc H') in Hn. exact (Hn Ha).
    + apply HU. split; [exact Hout|]. intros s r' c' H H'. injection H as <- <-. rewrite (separates_unique _ _ _ Hc H'). exact Ha.
  - assert (HI' : forall ms, func_error P SP hf ts ms -> exists t' r', r = t' :: r' /\ ms = [left_over t']).
    { intros ms H. apply HI in H as (s & r' & H & [(c' & H' & Hn & _)|[(_ & Hn & _)|(_ & c' & t' & r'' & -> & H' & _ & ->)]]); injection H as <- E; subst.
      - rewrite (separates_unique _ _ _ Hc H') in Hn. destruct (Hn Ha).
      - destruct (Hn _ Hc).
      - eauto. }
    destruct r as [|t' r']; cbn [settled].
    + split; [intros ms H; apply HI' in H as (t' & r' & H & _); discriminate|]. intros H. apply HU in H as (H & _). congruence.
    + left. split.
      * intros ms. split; [intros H; apply HI' in H as (t'' & r'' & H & ->); injection H as <- <-; reflexivity|]. intros ->.
        eapply left_after_separator; [apply HK; repeat split; symmetry; exact Hout|exact Hc|exact Ha].
      * intros H. apply HU in H as (H & _). congruence.
Qed.

(** ** [#[compose_item]] *)
Lemma attr_error_inv item ts ms : attr_error P SP hf item ts ms ->
  header_error P hf ts ms \/
  exists loops spec u rest, headed P hf ts loops spec u rest /\
    ((exists los s c r, loops = Some los /\ spec = None /\ rest = s :: r /\ separates c (erase s) /\
        ms = [says (here call_site (s :: r)) (txt "Trailing separator after loops is not allowed in #[compose_item].")]) \/
     (exists s c r, loops = None /\ spec = None /\ u = false /\ rest = s :: r /\ separates c (erase s) /\ ms = [left_over s]) \/
     (exists t r, u = false /\ closed spec rest (t :: r) /\ ms = [left_over t]) \/
     (u = false /\ closed spec rest [] /\ pre_block P (map erase (braces item)) = None /\ ms = block_error SP (braces item)) \/
     (exists block k, u = false /\ closed spec rest [] /\ pre_block P (map erase (braces item)) = Some (block, k, false) /\ k <> 1 /\
        ms = [says call_site (txt "unexpected token")])).
Proof.
  intros [? ? H|? los u s c r H Hc|? s c r H Hc|? lo sp rest t r H Hc|? lo sp rest H Hc Hb|? lo sp rest bl k H Hc Hb Hk]; [left; exact H|right; do 4 eexists; (split; [exact H|])..].
  - left. do 4 eexists. repeat split. exact Hc.
  - right; left. do 3 eexists. repeat split. exact Hc.
  - right; right; left. eauto.
  - right; right; right; left. auto.
  - right; right; right; right. exists bl, k. auto.
Qed.
Lemma attr_unread_inv item ts : attr_unread P hf item ts -> exists loops spec u rest, headed P hf ts loops spec u rest /\
  (u = true /\ (forall s r c, rest = s :: r -> separates c (erase s) -> loops = None \/ spec <> None) \/
   u = false /\ closed spec rest [] /\ exists block k, pre_block P (map erase (braces item)) = Some (block, k, true)).
Proof. intros [? lo sp rest H Hc|? lo sp rest bl k H Hc Hb]; do 4 eexists; (split; [exact H|]); eauto 10. Qed.

Lemma attr_settled n ts item : settled (attr_error P SP hf item ts) (attr_unread P hf item ts) (sp_ast (sparse_attr_macro P SP hf n ts item)).
Proof.
  unfold sparse_attr_macro. pose proof (header_cases n ts) as HC. destruct (sparse_header P SP hf n (map sann' ts)) as [[[[lo sp] l] u1]|ms].
  2:{ destruct HC as [HE HN]. left. split.
      - intros ms'. rewrite <- HE. split; [|apply wrong_attr_header]. intros H.
        apply attr_error_inv in H as [H|(lo & sp & u & r & H & _)]; [exact H|]. apply headed_inv in H as (b & _ & H). destruct (HN _ _ _ _ H).
      - intros H. apply attr_unread_inv in H as (lo & sp & u & r & H & _). apply headed_inv in H as (b & _ & H). destruct (HN _ _ _ _ H). }
  destruct HC as (HE & before & rest & Ets & -> & HA). rewrite stoks_sann.
  set (spec := option_map (map_spec SpecPrograms.erase) (option_map plain_spec sp)) in HA.
  set (loops := option_map (map (map_loop SpecPrograms.erase)) (option_map (map plain_loop) lo)) in HA.
  assert (HH : forall loops' spec' u r, headed P hf ts loops' spec' u r <-> loops' = loops /\ spec' = spec /\ u = is_some u1 /\ r = rest).
  { intros loops' spec' u r. split.
    - intros H. apply headed_inv in H as (b & E & H). apply HA in H as (-> & -> & -> & Er). rewrite Ets in E. symmetry in E. apply (same_suffix _ _ _ _ E) in Er. auto.
    - intros (-> & -> & -> & ->). rewrite Ets. constructor. rewrite <- Ets. apply HA. auto. }
  assert (HI : forall ms, attr_error P SP hf item ts ms <->
    ((exists los s c r, loops = Some los /\ spec = None /\ rest = s :: r /\ separates c (erase s) /\
        ms = [says (here call_site (s :: r)) (txt "Trailing separator after loops is not allowed in #[compose_item].")]) \/
     (exists s c r, loops = None /\ spec = None /\ is_some u1 = false /\ rest = s :: r /\ separates c (erase s) /\ ms = [left_over s]) \/
     (exists t r, is_some u1 = false /\ closed spec rest (t :: r) /\ ms = [left_over t]) \/
     (is_some u1 = false /\ closed spec rest [] /\ pre_block P (map erase (braces item)) = None /\ ms = block_error SP (braces item)) \/
     (exists block k, is_some u1 = false /\ closed spec rest [] /\ pre_block P (map erase (braces item)) = Some (block, k, false) /\ k <> 1 /\
        ms = [says call_site (txt "unexpected token")]))).
  { intros ms. split.
    - intros H. apply attr_error_inv in H as [H|(lo' & sp' & u & r & H & Hcs)]; [destruct (HE _ H)|]. apply HH in H as (-> & -> & -> & ->). exact Hcs.
    - assert (Hd := proj2 (HH loops spec (is_some u1) rest) (conj eq_refl (conj eq_refl (conj eq_refl eq_refl)))).
      intros [(los & s & c & r & El & Es & Er & Hc & ->)|[(s & c & r & El & Es & Eu & Er & Hc & ->)|[(t & r & Eu & Hc & ->)|[(Eu & Hc & Hb & ->)|(bl & k & Eu & Hc & Hb & Hk & ->)]]]].
      + rewrite El, Es, Er in Hd. eapply separator_after_loops; eassumption.
      + rewrite El, Es, Er, Eu in Hd. eapply separator_alone; eassumption.
      + rewrite Eu in Hd. eapply left_in_attr; eassumption.
      + rewrite Eu in Hd. eapply no_item; eassumption.
      + rewrite Eu in Hd. eapply left_of_item; eassumption. }
  assert (HU : attr_unread P hf item ts <->
    (is_some u1 = true /\ (forall s r c, rest = s :: r -> separates c (erase s) -> loops = None \/ spec <> None) \/
     is_some u1 = false /\ closed spec rest [] /\ exists block k, pre_block P (map erase (braces item)) = Some (block, k, true))).
  { split.
    - intros H. apply attr_unread_inv in H as (lo' & sp' & u & r & H & Hcs). apply HH in H as (-> & -> & -> & ->). exact Hcs.
    - assert (Hd := proj2 (HH loops spec (is_some u1) rest) (conj eq_refl (conj eq_refl (conj eq_refl eq_refl)))).
      intros [(Eu & Hc)|(Eu & Hc & bl & k & Hb)]; rewrite Eu in Hd; [eapply attr_unread_header; eassumption|eapply attr_unread_item; eassumption]. }
  clear HE HA HH.
  (* no separator, or one that is skipped *)
  assert (Hgo : forall rest', (forall r', closed spec rest r' <-> r' = rest') ->
    (forall s r c, rest = s :: r -> separates c (erase s) -> spec <> None) ->
    settled (attr_error P SP hf item ts) (attr_unread P hf item ts) (sp_ast
      match finish (Some (suses_semicolons sp)) u1 rest' {| sa_loops := lo; sa_spec := sp; sa_block := [] |} with
      | {| sp_ast := inr e |} => ssyntax_error (Some (suses_semicolons sp)) e
      | {| sp_ast := inl _ |} =>
          match spre_block SP [sgroup Brace call_site item] with
          | None => ssyntax_error (Some (suses_semicolons sp)) (block_error SP [sgroup Brace call_site item])
          | Some (block, k, u2) =>
              finish (Some (suses_semicolons sp)) u2 (if Nat.eqb k 1 then [] else [sgroup Brace call_site item]) {| sa_loops := lo; sa_spec := sp; sa_block := block |}
          end
      end)).
  { intros rest' HCl HNo. change [sgroup Brace call_site item] with (braces item).
    assert (HI' : forall ms, attr_error P SP hf item ts ms -> is_some u1 = false /\
      ((exists t r, rest' = t :: r /\ ms = [left_over t]) \/ (rest' = [] /\ pre_block P (map erase (braces item)) = None /\ ms = block_error SP (braces item)) \/
       exists block k, rest' = [] /\ pre_block P (map erase (braces item)) = Some (block, k, false) /\ k <> 1 /\ ms = [says call_site (txt "unexpected token")])).
    { intros ms H. apply HI in H as [(los & s & c & r & El & Es & Er & Hc & ->)|[(s & c & r & El & Es & Eu & Er & Hc & ->)|[(t & r & Eu & Hc & ->)|[(Eu & Hc & Hb & ->)|(bl & k & Eu & Hc & Hb & Hk & ->)]]]].
      - destruct (HNo _ _ _ Er Hc Es).
      - destruct (HNo _ _ _ Er Hc Es).
      - apply HCl in Hc. split; [exact Eu|]. left. eauto.
      - apply HCl in Hc. split; [exact Eu|]. right; left. auto.
      - apply HCl in Hc. split; [exact Eu|]. right; right. exists bl, k. auto. }
    destruct u1 as [m|].
    { cbn [finish sp_ast ssyntax_error settled]. right. split; [intros ms H; apply HI' in H as (H & _); discriminate|]. split; [|eauto].
      apply HU. left. split; [reflexivity|]. intros s r c Er Hc. right. exact (HNo _ _ _ Er Hc). }
    destruct rest' as [|t r]; cbn [finish sp_ast ssyntax_error].
    2:{ left. split.
        - intros ms. split; [|intros ->; apply HI; right; right; left; exists t, r; split; [reflexivity|split; [apply HCl; reflexivity|reflexivity]]].
          intros H. apply HI' in H as (_ & [(t' & r' & E & ->)|[(E & _)|(bl & k & E & _)]]); [injection E as <- <-; reflexivity|discriminate..].
        - intros H. apply HU in H as [(H & _)|(_ & H & _)]; [discriminate|]. apply HCl in H. discriminate. }
    pose proof (spanless_pre_block P SP HS (braces item)) as HB. destruct (spre_block SP (braces item)) as [[[block k] u2]|]; cbn [option_map erase_node] in HB; symmetry in HB.
    2:{ cbn [sp_ast ssyntax_error settled]. left. split.
        - intros ms. split.
          + intros H. apply HI' in H as (_ & [(t' & r' & E & _)|[(_ & _ & ->)|(bl & k & _ & H & _)]]); [discriminate|reflexivity|congruence].
          + intros ->. apply HI. right; right; right; left. repeat split; [apply HCl; reflexivity|exact HB].
        - intros H. apply HU in H as [(H & _)|(_ & _ & bl & k & H)]; [discriminate|congruence]. }
    rewrite finish_ast. destruct u2 as [m|]; cbn [is_some] in HB.
    { cbn [settled]. right. split; [|split; [|eauto]].
      - intros ms H. apply HI' in H as (_ & [(t' & r' & E & _)|[(_ & H & _)|(bl & k' & _ & H & _)]]); [discriminate|congruence..].
      - apply HU. right. repeat split; [apply HCl; reflexivity|eauto]. }
    assert (Hnu : ~ attr_unread P hf item ts) by (intros H; apply HU in H as [(H & _)|(_ & _ & bl & k' & H)]; [discriminate|congruence]).
    destruct (Nat.eqb k 1) eqn:Ek; cbn [settled braces].
    - apply Nat.eqb_eq in Ek. split; [|exact Hnu]. intros ms H. apply HI' in H as (_ & [(t' & r' & E & _)|[(_ & H & _)|(bl & k' & _ & H & Hk & _)]]); [discriminate|congruence..].
    - apply Nat.eqb_neq in Ek. left. split; [|exact Hnu]. intros ms. split.
      + intros H. apply HI' in H as (_ & [(t' & r' & E & _)|[(_ & H & _)|(bl & k' & _ & _ & _ & ->)]]); [discriminate|congruence|reflexivity].
      + intros ->. apply HI. right; right; right; right. exists (map erase_stmt block), k. repeat split; [apply HCl; reflexivity|exact HB|exact Ek]. }
  destruct rest as [|t r].
  { apply Hgo; [|discriminate]. intros r'. split; [intros H; inversion H; reflexivity|intros ->; constructor; discriminate]. }
  cbn [sskip_separator]. destruct (is_separator (erase t)) eqn:Et.
  2:{ assert (Hc := proj1 (not_separator _) Et). apply Hgo; [|intros s r' c E H; injection E as <- <-; destruct (Hc _ H)].
      intros r'. split; [intros H; inversion H as [? ? Hn|? ? c ? Hs]; subst; [reflexivity|destruct (Hc _ Hs)]|].
      intros ->. constructor. intros t' r' c E. injection E as <- <-. apply Hc. }
  apply separator_separates in Et. set (c := is_comma (erase t)) in Et.
  destruct sp as [sp|].
  { apply Hgo; [|intros ? ? ? _ _ H; discriminate]. intros r'. split.
    - intros H. inversion H as [? ? Hn|? ? c' ? Hs]; subst; [destruct (Hn _ _ _ eq_refl Et)|reflexivity].
    - intros ->. eapply closed_separator. exact Et. }
  assert (HCl : forall r', ~ closed spec (t :: r) r') by (intros r' H; inversion H as [? ? Hn|]; subst; exact (Hn _ _ _ eq_refl Et)).
  destruct lo as [lo|].
  - rewrite error_at_says. cbn [sp_ast ssyntax_error settled]. left. split.
    + intros ms. split.
      * intros H. apply HI in H as [(los & s & c' & r' & El & Es & Er & Hc & ->)|[(s & c' & r' & El & _)|[(t' & r' & _ & Hc & _)|[(_ & Hc & _)|(bl & k & _ & Hc & _)]]]];
          [injection Er as <- <-; reflexivity|discriminate|destruct (HCl _ Hc)..].
      * intros ->. apply HI. left. do 4 eexists. repeat split. exact Et.
    + intros H. apply HU in H as [(_ & H)|(_ & H & _)]; [|destruct (HCl _ H)]. destruct (H _ _ _ eq_refl Et) as [H'|H']; [discriminate|exact (H' eq_refl)].
  - destruct u1 as [m|]; cbn [finish sp_ast ssyntax_error settled].
    + right. split; [|split; [|eauto]].
      * intros ms H. apply HI in H as [(los & s & c' & r' & El & _)|[(s & c' & r' & _ & _ & Eu & _)|[(t' & r' & _ & Hc & _)|[(_ & Hc & _)|(bl & k & _ & Hc & _)]]]]; [discriminate..|destruct (HCl _ Hc)|destruct (HCl _ Hc)|destruct (HCl _ Hc)].
      * apply HU. left. split; [reflexivity|]. intros _ _ _ _ _. left. reflexivity.
    + left. split.
      * intros ms. split.
        -- intros H. apply HI in H as [(los & s & c' & r' & El & _)|[(s & c' & r' & _ & _ & _ & Er & _ & ->)|[(t' & r' & _ & Hc & _)|[(_ & Hc & _)|(bl & k & _ & Hc & _)]]]];
             [discriminate|injection Er as <- <-; reflexivity|destruct (HCl _ Hc)..].
        -- intros ->. apply HI. right; left. do 3 eexists. repeat split. exact Et.
      * intros H. apply HU in H as [(H & _)|(_ & H & _)]; [discriminate|destruct (HCl _ H)].
Qed.

Lemma input_settled n s : settled (input_error P SP hf s) (input_unread P hf s) (sp_ast
  match s with
  | SCompose ts | SComposeIdents ts => sparse_func_macro P SP hf n ts
  | SComposeItem attr item => sparse_attr_macro P SP hf n attr item
  end).
Proof. destruct s; [apply func_settled|apply func_settled|apply attr_settled]. Qed.

(** ** Something is said *)
Lemma list_error_some close item (bad : list stt -> messages -> Prop) ts ms : (forall ts ms, bad ts ms -> ms <> []) -> list_error close item bad ts ms -> ms <> [].
Proof. intros Hb. induction 1 as [ts ms _ H|ts k t r _ _ _ _|ts k s r ms _ _ _ _ IH]; [exact (Hb _ _ H)|discriminate|exact IH]. Qed.
Lemma loops_error_some ts ms : loops_error P hf ts ms -> ms <> [].
Proof.
  induction 1 as [f r ms _ H|? ? ? ? _ _ _|? ? ? ? ? _ _ _ _|f pat al kw inner s r ms _ _ _ H|? ? ? ? ? ? ? ? ? _ _ _ _ _ IH]; try discriminate; [| |exact IH].
  - destruct H; discriminate.
  - apply list_error_some in H; [exact H|contradiction].
Qed.
Lemma definitions_error_some used ts ms : definitions_error P hf used ts ms -> ms <> [].
Proof. induction 1 as [? ? ? H| |? ? ? ? ? ? _ _ _ _ _ IH]; [destruct H; discriminate|discriminate|exact IH]. Qed.
Lemma header_error_some ts ms : header_error P hf ts ms -> ms <> [].
Proof. intros [? ? H|? ? ? ? ? _ _ H]; [exact (loops_error_some _ _ H)|exact (definitions_error_some _ _ _ H)]. Qed.
Lemma input_error_some s ms : (forall ts, block_error SP ts <> []) -> input_error P SP hf s ms -> ms <> [].
Proof.
  intros Hb. assert (F : forall ts, func_error P SP hf ts ms -> ms <> []).
  { intros ts [? ? H| | | |]; [exact (header_error_some _ _ H)|apply Hb|discriminate..]. }
  destruct s as [ts|ts|attr item]; [apply F|apply F|]. intros [? ? H| | | | |]; [exact (header_error_some _ _ H)|try discriminate..]. apply Hb.
Qed.
End Proofs.

Lemma defined_intro P hf x s q j vs e k u rest : ident_allowed P x = true -> erase q = TPunct 61%N j -> reads P hf (map erase vs) e k u -> skipn k vs = rest ->
  defined P hf (SIdent x s :: q :: vs) rest.
Proof. intros Hx Hq Hr <-. exact (defined_ _ _ _ _ _ _ _ _ _ _ Hx Hq Hr). Qed.

(** ** The macros *)
Section Uses.
Context (O : oracles) (SO : soracles) (P : parsers) (SP : sparsers) (SY : ssyntax) (LP : spanless_parsers P SP).

Definition calm (t : thread) : Prop := t = None \/ exists prefix, t = idle prefix.
Lemma core_calm t inv : calm t -> calm (fst (scompose_core O SO SY t inv)) /\
  forall ms, snd (scompose_core O SO SY t inv) = SSyntaxError ms <-> sp_ast (sinv_parsed inv) = inr ms.
Proof.
  intros Ht. destruct inv as [prefix [sc ast] seed first]. unfold scompose_core. cbn [sinv_prefix sinv_parsed sinv_seed sinv_first_id sp_scope sp_ast].
  destruct Ht as [->|(q & ->)]; destruct sc as [[|]|]; cbn; (destruct ast as [a|e]; [|split; [right; eexists; reflexivity|intros ms; cbn; split; intros E; injection E as <-; reflexivity]]);
    (split; [right; eexists; reflexivity|]); intros ms; cbn; (split; [|discriminate]);
    match goal with |- context [sexecute ?a ?b ?c ?d ?e ?f] => destruct (sexecute a b c d e f); discriminate end.
Qed.
Lemma run_calm uses : forall t, calm t ->
  Forall2 (fun u o => forall ms, o = SSyntaxError ms <-> sp_ast (sinv_parsed (sinvocation_for O P SP u)) = inr ms)
    uses (snd (SpanMacro.srun O SO SY t (map (sinvocation_for O P SP) uses))).
Proof.
  induction uses as [|u uses IH]; intros t Ht; [constructor|]. cbn [map SpanMacro.srun].
  destruct (core_calm t (sinvocation_for O P SP u) Ht) as [Hc Hm]. destruct (scompose_core O SO SY t (sinvocation_for O P SP u)) as [t1 o]. cbn [fst snd] in *.
  specialize (IH t1 Hc). destruct (SpanMacro.srun O SO SY t1 _) as [t2 os]. constructor; assumption.
Qed.
Lemma uses_calm uses : Forall2 (fun u o => settled (input_error P SP (known O) (su_source u)) (input_unread P (known O) (su_source u))
    (match o with SSyntaxError ms => inr ms | _ => inl {| sa_loops := None; sa_spec := None; sa_block := [] |} end))
  uses (sexpand_uses O SO P SP SY uses).
Proof.
  assert (H := run_calm uses None (or_introl eq_refl)). unfold sexpand_uses. induction H as [|u o us os Hm _ IH]; constructor; [|exact IH].
  assert (G := input_settled P SP (known O) LP (su_next_id u) (su_source u)). unfold sinvocation_for, sinvocation_of in Hm. cbn [sinv_parsed] in Hm.
  destruct (sp_ast _) as [ast|e].
  - destruct o as [ts|ms|f s|p]; try exact G. discriminate (proj1 (Hm ms) eq_refl).
  - rewrite (proj2 (Hm e) eq_refl). exact G.
Qed.

Lemma errors_said uses : Forall2 (fun u o => forall ms, input_error P SP (known O) (su_source u) ms -> o = SSyntaxError ms)
  uses (sexpand_uses O SO P SP SY uses).
Proof.
  induction (uses_calm uses) as [|u o us os H _ IH]; constructor; [|exact IH]. intros ms Hm.
  destruct o as [ts|ms'|f s|p]; cbn [settled] in H; try (destruct H as [H _]; destruct (H _ Hm)).
  destruct H as [[H _]|[H _]]; [apply H in Hm; subst; reflexivity|destruct (H _ Hm)].
Qed.
Lemma only_errors_said uses : Forall2 (fun u o => forall ms, o = SSyntaxError ms ->
    input_error P SP (known O) (su_source u) ms \/ input_unread P (known O) (su_source u) /\ exists m, ms = [m])
  uses (sexpand_uses O SO P SP SY uses).
Proof.
  induction (uses_calm uses) as [|u o us os H _ IH]; constructor; [|exact IH]. intros ms ->. cbn [settled] in H.
  destruct H as [[H _]|(_ & H & E)]; [left; apply H; reflexivity|right; auto].
Qed.
Lemma unread_said uses : Forall2 (fun u o => input_unread P (known O) (su_source u) -> exists m, o = SSyntaxError [m])
  uses (sexpand_uses O SO P SP SY uses).
Proof.
  induction (uses_calm uses) as [|u o us os H _ IH]; constructor; [|exact IH]. intros Hu.
  destruct o as [ts|ms'|f s|p]; cbn [settled] in H; try (destruct H as [_ H]; destruct (H Hu)).
  destruct H as [[_ H]|(_ & _ & m & ->)]; [destruct (H Hu)|eauto].
Qed.
Lemma never_silent uses : (forall ts, block_error SP ts <> []) ->
  Forall2 (fun u o => forall ts, SpanMacro.emitted o = Some ts -> o = SCode ts \/ exists m r, ts = spelled m ++ r)
    uses (sexpand_uses O SO P SP SY uses).
Proof.
  intros Hb. induction (only_errors_said uses) as [|u o us os H _ IH]; constructor; [|exact IH]. intros ts E.
  destruct o as [c|ms|f s|p]; cbn [SpanMacro.emitted said] in E; [left; congruence|right..|discriminate]; injection E as <-.
  - destruct ms as [|m ms]; [exfalso|exists m, (flat_map compile_error_tokens ms); reflexivity]. destruct (H [] eq_refl) as [H'|(_ & m & H')]; [|discriminate].
    exact (input_error_some _ _ _ _ _ Hb H' eq_refl).
  - exists (new_message s (Failures.message f)), []. reflexivity.
Qed.
End Uses.
