(** The parsers accept the grammar of SpecGrammar.v. *)
From Coq Require Import String Bool.
From Verif Require Import Base BaseFacts Token Types Values Ast Item Interpreter Parse
  SpecElab SpecSubst SpecPrograms SpecParse SpecRepro SpecGrammar ParseProofs ParseIds SeparatorProofs ReproProofs.
Open Scope list_scope.

Section Proofs.
Context (P : parsers) (hf : str -> bool).
Notation ann' := (ann P hf).

Lemma size_skipn k ts : stream_size (skipn k ts) <= stream_size ts.
Proof.
  revert ts. induction k as [|k IH]; intros [|t ts]; cbn [skipn]; try lia. specialize (IH ts). cbn. fold (stream_size ts). lia.
Qed.
Lemma size_cons t ts : stream_size (t :: ts) = tt_size t + stream_size ts.
Proof. reflexivity. Qed.
Lemma size_pos t : 1 <= tt_size t.
Proof. destruct t; cbn; lia. Qed.

(** ** Lists with commas *)
Section Terminated.
Context {A B : Type} (item : N -> list atok -> N * option (A * nat)) (er : A -> B).

Definition after_item (n : N) (l : list atok) : N * option (list A) :=
  match l with
  | [] => (n, Some [])
  | t :: r => if is_comma (a_tok t) then parse_terminated item r None n else (n, None)
  end.
Lemma terminated_skip k : forall l n, parse_terminated item l (Some k) n = after_item n (skipn k l).
Proof. induction k as [|k IH]; intros [|t r] n; try reflexivity. cbn [parse_terminated skipn]. apply IH. Qed.
Lemma terminated_eq l n : l <> [] -> parse_terminated item l None n =
  match item n l with
  | (n1, None) => (n1, None)
  | (n1, Some (a, k)) => let (n2, rest) := after_item n1 (skipn k l) in (n2, option_map (cons a) rest)
  end.
Proof.
  destruct l as [|t r]; [contradiction|]. intros _. cbn [parse_terminated]. destruct (item n (t :: r)) as [n1 [[a k]|]]; [|reflexivity].
  destruct k as [|k]; cbn [skipn]; [reflexivity|]. rewrite terminated_skip. reflexivity.
Qed.

Context (R : list tt -> B -> nat -> Prop) (m : nat).
Hypothesis item_spec : forall ts, ts <> [] -> stream_size ts <= m -> forall n b k,
  R ts b k <-> exists a, snd (item n (map ann' ts)) = Some (a, k) /\ er a = b.

Lemma terminated_spec ts : stream_size ts <= m -> forall n l,
  listed R ts l <-> exists l0, snd (parse_terminated item (map ann' ts) None n) = Some l0 /\ map er l0 = l.
Proof.
  remember (List.length ts) as len eqn:Hlen. revert ts Hlen. induction len as [len IH] using lt_wf_ind. intros ts Hlen Hm n l.
  destruct ts as [|t ts].
  { cbn. split.
    - intros H. inversion H as [| ? ? ? Hne |? ? ? ? ? ? Hi Hs]; subst; [exists []; auto|congruence|rewrite skipn_nil in Hs; discriminate].
    - intros (l0 & E & <-). injection E as <-. constructor. }
  assert (Hne : t :: ts <> []) by discriminate. set (all := t :: ts) in *.
  assert (Hne' : map ann' all <> []) by discriminate.
  rewrite (terminated_eq _ n Hne').
  pose proof (item_spec all Hne Hm n) as HI.
  destruct (item n (map ann' all)) as [n1 [[a k]|]] eqn:Ei; cbn [snd] in HI.
  - rewrite skipn_ann. destruct (skipn k all) as [|s r] eqn:Es; cbn [map after_item].
    + cbn [snd option_map]. split.
      * intros H. inversion H as [| ? b j _ Hb Hj |? b j s r l' Hb Hj]; subst; try congruence.
        -- apply HI in Hb as (a' & E & <-). injection E as <- <-. exists [a]. auto.
        -- apply HI in Hb as (a' & E & <-). injection E as <- <-. congruence.
      * intros (l0 & E & <-). injection E as <-. eapply listed_last; [exact Hne| |exact Es]. apply HI. eauto.
    + rewrite ann_tok. change (is_comma s) with (commab s).
      assert (Hl : List.length (s :: r) <= List.length all) by (rewrite <- Es, skipn_length; lia). cbn [List.length] in Hl.
      assert (Hz : stream_size r <= m) by (pose proof (size_skipn k all) as Hz; rewrite Es, size_cons in Hz; lia).
      destruct (commab s) eqn:Ec.
      * assert (IH' := fun n l => IH (List.length r) ltac:(lia) r eq_refl Hz n l). clear IH. specialize (IH' n1).
        destruct (parse_terminated item (map ann' r) None n1) as [n2 o]. cbn [snd] in *. split.
        -- intros H. inversion H as [| ? b j _ Hb Hj |? b j s' r' l' Hb Hj Hc Hr]; subst; try congruence.
           ++ apply HI in Hb as (a' & E & <-). injection E as <- <-. congruence.
           ++ apply HI in Hb as (a' & E & <-). injection E as <- <-. rewrite Es in Hj. injection Hj as <- <-.
              apply IH' in Hr as (l0 & -> & <-). exists (a :: l0). auto.
        -- intros (l0 & E & <-). destruct o as [l1|]; [|discriminate]. injection E as <-. cbn [map].
           eapply listed_more; [apply HI; eauto|exact Es|exact Ec|]. apply IH'. eauto.
      * cbn [snd option_map]. split; [|intros (l0 & E & _); discriminate].
        intros H. inversion H as [| ? b j _ Hb Hj |? b j s' r' l' Hb Hj Hc Hr]; subst; try congruence;
          apply HI in Hb as (a' & E & _); injection E as <- <-; congruence.
  - cbn [snd]. split; [|intros (l0 & E & _); discriminate].
    intros H. inversion H as [| ? b j _ Hb Hj |? b j s' r' l' Hb Hj Hc Hr]; subst; try congruence; apply HI in Hb as (a' & E & _); discriminate.
Qed.
End Terminated.

(** ** Pieces *)
Lemma split_nonempty ts : split_commas ts <> [].
Proof. destruct ts as [|t r]; cbn; [discriminate|]. destruct (commab t); [discriminate|]. destruct (split_commas r); discriminate. Qed.
Lemma split_hd ts : hd [] (split_commas ts) = until is_comma ts.
Proof.
  induction ts as [|t r IH]; [reflexivity|]. cbn. change (is_comma t) with (commab t). destruct (commab t); [reflexivity|].
  pose proof (split_nonempty r). destruct (split_commas r); [congruence|]. cbn in *. congruence.
Qed.
Lemma split_tl ts : split_commas ts = until is_comma ts ::
  match skipn (List.length (until is_comma ts)) ts with [] => [] | _ :: r => split_commas r end.
Proof.
  induction ts as [|t r IH]; [reflexivity|]. cbn. change (is_comma t) with (commab t). destruct (commab t); [reflexivity|].
  rewrite IH. cbn. f_equal. 
Qed.
Lemma until_next ts s r : skipn (List.length (until is_comma ts)) ts = s :: r -> commab s = true.
Proof.
  induction ts as [|t ts IH]; cbn; [discriminate|]. change (is_comma t) with (commab t). destruct (commab t) eqn:E; [|exact IH].
  cbn. intros H. injection H as <- <-. exact E.
Qed.
Lemma pieces_cons t ts : pieces (t :: ts) = until is_comma (t :: ts) ::
  match skipn (List.length (until is_comma (t :: ts))) (t :: ts) with [] => [] | _ :: r => pieces r end.
Proof.
  unfold pieces. rewrite split_tl. remember (until is_comma (t :: ts)) as p eqn:Hp. clear Hp.
  destruct (skipn (List.length p) (t :: ts)) as [|s r] eqn:E.
  - destruct p; [discriminate|reflexivity].
  - pose proof (split_nonempty r). destruct (split_commas r) eqn:E'; [congruence|]. destruct p; reflexivity.
Qed.
Lemma until_size ts : stream_size (until is_comma ts) <= stream_size ts.
Proof. induction ts as [|t ts IH]; [cbn; lia|]. cbn. fold (stream_size ts). destruct (is_comma t); cbn; [lia|]. fold (stream_size (until is_comma ts)). lia. Qed.
Lemma pieces_size ts : forall p, In p (pieces ts) -> stream_size p <= stream_size ts.
Proof.
  remember (List.length ts) as len eqn:Hlen. revert ts Hlen. induction len as [len IH] using lt_wf_ind. intros ts Hlen p Hp.
  destruct ts as [|t ts]; [contradiction|]. rewrite pieces_cons in Hp. destruct Hp as [<-|Hp]; [apply until_size|].
  destruct (skipn _ (t :: ts)) as [|s r] eqn:E; [contradiction|].
  assert (Hl : List.length (s :: r) <= List.length (t :: ts)) by (rewrite <- E, skipn_length; lia).
  pose proof (size_skipn (List.length (until is_comma (t :: ts))) (t :: ts)) as Hz. rewrite E, size_cons in Hz.
  specialize (IH (List.length r) ltac:(cbn in *; lia) r eq_refl p Hp). lia.
Qed.
Lemma listed_pieces {B} (Q : list tt -> B -> Prop) ts : forall l,
  listed (fun ts b k => k = List.length (until is_comma ts) /\ Q (until is_comma ts) b) ts l <-> Forall2 Q (pieces ts) l.
Proof.
  remember (List.length ts) as len eqn:Hlen. revert ts Hlen. induction len as [len IH] using lt_wf_ind. intros ts Hlen l.
  destruct ts as [|t ts].
  { split; intros H; [|inversion H; constructor]. inversion H as [| ? ? ? Hne |? ? ? ? ? ? Hi Hs]; subst; [constructor|congruence|rewrite skipn_nil in Hs; discriminate]. }
  rewrite pieces_cons. set (all := t :: ts) in *. set (p := until is_comma all) in *. destruct (skipn (List.length p) all) as [|s r] eqn:E.
  - split; intros H.
    + inversion H as [| ? b j _ [-> Hb] Hj |? b j s r l' [-> Hb] Hj]; subst; [|fold p in Hj; congruence]. constructor; [exact Hb|constructor].
    + inversion H as [|? b ? l' Hb Hl]; subst. inversion Hl; subst. eapply listed_last; [discriminate|split; [reflexivity|exact Hb]|exact E].
  - assert (Hl : List.length (s :: r) <= List.length all) by (rewrite <- E, skipn_length; lia).
    assert (IH' := fun l => IH (List.length r) ltac:(subst len; cbn [List.length] in *; lia) r eq_refl l). split; intros H.
    + inversion H as [| ? b j _ [-> Hb] Hj |? b j s' r' l' [-> Hb] Hj Hc Hr]; subst; [fold p in Hj; congruence|]. fold p in Hj, Hb. rewrite E in Hj. injection Hj as <- <-.
      constructor; [exact Hb|apply IH'; exact Hr].
    + inversion H as [|? b ? l' Hb Hl']; subst. eapply listed_more; [split; [reflexivity|exact Hb]|exact E|eapply until_next; exact E|apply IH'; exact Hl'].
Qed.

(** ** Values *)
Lemma rank_inj c c' : rank c = rank c' -> c = c'.
Proof. destruct c, c'; cbn; congruence. Qed.
Lemma takes_same c ts v k u v' k' u' : takes P c ts v k u -> takes P c ts v' k' u' -> v = v' /\ k = k' /\ u = u'.
Proof. intros H H'. apply takes_attempt in H. apply takes_attempt in H'. rewrite H in H'. injection H' as -> -> ->. auto. Qed.

Lemma value_spec ts n v k u : value_at P ts v k u <-> er_value (snd (parse_value P is_comma n ts)) = (EValue 0 v, k, u).
Proof.
  destruct (parse_value P is_comma n ts) as [n' [[e0 k0] u0]] eqn:E. apply value_best in E. cbn [snd er_value].
  destruct E as [(c & v0 & id & -> & Ht & He & Hb)|(Hno & id & tokens & rest & -> & -> & -> & Hts & Hall & Hrest)]; cbn [erase].
  - assert (Hv : value_at P ts v0 k0 u0).
    { left. exists c. repeat split; [exact Ht|exact He|]. intros c' v' k' u' H1 H2. rewrite <- !distance_to_leaves. apply Hb with (v' := v') (u' := u'); assumption. }
    split.
    + intros [(c' & Ht' & He' & Hb')|(Hno & _)]; [|destruct (Hno _ _ _ _ Ht He)].
      specialize (Hb _ _ _ _ Ht' He'). specialize (Hb' _ _ _ _ Ht He). rewrite <- !distance_to_leaves in Hb'.
      assert (Hr : rank c = rank c') by lia. apply rank_inj in Hr as <-. destruct (takes_same _ _ _ _ _ _ _ _ Ht Ht') as (-> & -> & ->). reflexivity.
    + intros H. injection H as <- <- <-. exact Hv.
  - assert (Hh : hd [] (split_commas ts) = tokens).
    { rewrite split_hd, Hts. clear -Hall Hrest. induction Hall as [|t l Ht Hl IH]; cbn [app until].
      - destruct Hrest as [->|(t & r & -> & Ht)]; [reflexivity|]. cbn. rewrite Ht. reflexivity.
      - rewrite Ht. f_equal. exact IH. }
    split.
    + intros [(c' & Ht' & He' & _)|(_ & -> & -> & ->)]; [destruct (Hno _ _ _ _ Ht' He')|]. rewrite Hh. reflexivity.
    + intros H. injection H as <- <- <-. right. rewrite Hh. auto.
Qed.
Lemma value_is ts n : exists v k u, er_value (snd (parse_value P is_comma n ts)) = (EValue 0 v, k, u).
Proof.
  destruct (parse_value P is_comma n ts) as [n' [[e0 k0] u0]] eqn:E. apply value_best in E. cbn [snd er_value].
  destruct E as [(c & v0 & id & -> & _)|(_ & id & tokens & rest & -> & _)]; cbn [erase]; eauto.
Qed.

(** ** Expressions *)
Lemma auntil_ann ts : auntil is_comma (map ann' ts) = map ann' (until is_comma ts).
Proof. induction ts as [|t r IH]; [reflexivity|]. cbn [map auntil until]. rewrite ann_tok. destruct (is_comma t); [reflexivity|]. rewrite IH. reflexivity. Qed.

Lemma call_head_dec ts : {p | ts = TIdent (fst (fst p)) :: TGroup Paren (snd (fst p)) :: snd p /\ ident_allowed P (fst (fst p)) = true /\ hf (fst (fst p)) = true} +
  {~ call_head P hf ts}.
Proof.
  destruct ts as [|[f|c j|l|d l] [|[y|c' j'|l'|[| | |] inner] rest]]; try (right; intros (? & ? & ? & H & _); discriminate).
  destruct (ident_allowed P f) eqn:E1; [destruct (hf f) eqn:E2|].
  - left. exists (f, inner, rest). auto.
  - right. intros (? & ? & ? & H & _ & H2). congruence.
  - right. intros (? & ? & ? & H & H1 & _). congruence.
Qed.

Definition whole (p : list tt) (e : expr) : Prop := exists k, reads P hf p e k false /\ skipn k p = [].

Definition reads_ok (m : nat) : Prop := forall ts, stream_size ts <= m -> forall n e k u,
  reads P hf ts e k u <-> er_value (snd (parse_expr P hf n (map ann' ts))) = (e, k, u).

Lemma arg_spec m : reads_ok m -> forall ts, ts <> [] -> stream_size ts <= m -> forall n e k,
  (k = List.length (until is_comma ts) /\ whole (until is_comma ts) e) <->
  exists a, snd (parse_arg P hf n (map ann' ts)) = Some (a, k) /\ erase a = e.
Proof.
  intros Hm ts Hne Hs n e k. unfold parse_arg. rewrite auntil_ann. set (p := until is_comma ts).
  assert (Hp : stream_size p <= m) by (pose proof (until_size ts); unfold p; lia).
  specialize (Hm p Hp n). destruct (parse_expr P hf n (map ann' p)) as [n' [[e0 k0] u0]]. cbn [snd er_value] in Hm.
  rewrite skipn_ann, map_length. split.
  - intros (-> & j & Hr & Hj). apply Hm in Hr. injection Hr as <- <- ->. rewrite Hj. cbn. eauto.
  - intros (a & H & <-). destruct (skipn k0 p) eqn:Ek; [|discriminate]. cbn in H. destruct u0; [discriminate|]. injection H as <- <-.
    split; [reflexivity|]. exists k0. split; [apply Hm; reflexivity|exact Ek].
Qed.

Lemma args_spec m : reads_ok m -> forall inner, stream_size inner <= m -> forall n l,
  (Forall2 whole (pieces inner) l \/ (l = [] /\ exists p e k u, In p (pieces inner) /\ reads P hf p e k u /\ (skipn k p <> [] \/ u = true))) <->
  map erase (snd (parse_args P hf (map ann' inner) n)) = l.
Proof.
  intros Hm inner Hs n l. unfold parse_args.
  pose proof (terminated_spec (parse_arg P hf) erase (fun ts b k => k = List.length (until is_comma ts) /\ whole (until is_comma ts) b) m (arg_spec m Hm) inner Hs n) as HT.
  setoid_rewrite (listed_pieces whole inner) in HT.
  assert (Hbad : (exists p e k u, In p (pieces inner) /\ reads P hf p e k u /\ (skipn k p <> [] \/ u = true)) -> forall l, ~ Forall2 whole (pieces inner) l).
  { intros (p & e & k & u & Hp & Hr & Hor) l' HF. apply pieces_size in Hp as Hz. 
    assert (Hw : exists e', whole p e').
    { clear -Hp HF. induction HF as [|x y xs ys Hxy HF IH]; [contradiction|]. destruct Hp as [<-|Hp]; eauto. }
    destruct Hw as (e' & k' & Hr' & Hk'). rewrite (Hm p ltac:(lia) 0%N) in Hr, Hr'. rewrite Hr in Hr'. injection Hr' as -> -> ->. destruct Hor; congruence. }
  destruct (parse_terminated (parse_arg P hf) (map ann' inner) None n) as [n' [args|]]; cbn [snd] in *.
  - assert (Hg : Forall2 whole (pieces inner) (map erase args)) by (apply HT; eauto). split.
    + intros [HF|(-> & Hb)]; [|destruct (Hbad Hb _ Hg)]. apply HT in HF as (l0 & E & <-). injection E as <-. reflexivity.
    + intros <-. left. exact Hg.
  - assert (Hg : forall l, ~ Forall2 whole (pieces inner) l) by (intros l' H; apply HT in H as (? & E & _); discriminate). split.
    + intros [HF|(-> & _)]; [destruct (Hg _ HF)|reflexivity].
    + intros <-. right. split; [reflexivity|].
      assert (Hsz : forall p, In p (pieces inner) -> stream_size p <= m) by (intros p Hp; apply pieces_size in Hp; lia).
      clear -Hm Hg Hsz. induction (pieces inner) as [|p ps IH]; [destruct (Hg [] (Forall2_nil _))|].
      destruct (er_value (snd (parse_expr P hf 0%N (map ann' p)))) as [[e k] u] eqn:E. apply Hm in E; [|apply Hsz; left; reflexivity].
      destruct (skipn k p) as [|? ?] eqn:Ek; [destruct u|]; try (exists p, e, k; eexists; split; [left; reflexivity|]; split; [exact E|]; first [right; reflexivity|left; congruence]).
      destruct IH as (p' & e' & k' & u' & Hin & Hr).
      * intros l HF. apply (Hg (e :: l)). constructor; [|exact HF]. exists k. auto.
      * intros q Hq. apply Hsz. right. exact Hq.
      * exists p', e', k', u'. split; [right; exact Hin|exact Hr].
Qed.

Lemma reads_all m : reads_ok m.
Proof.
  induction m as [|m IH]; intros ts Hs n e k u.
  - destruct ts as [|t ts]; [|rewrite size_cons in Hs; pose proof (size_pos t); lia]. unfold parse_expr. cbn [map parse_call toks].
    split; intros H.
    + inversion H; subst. apply value_spec. assumption.
    + destruct (value_is [] n) as (v & k0 & u0 & Ev). rewrite Ev in H. injection H as <- <- <-. apply reads_value; [|apply (value_spec [] n); exact Ev].
      intros (? & ? & ? & ? & _). discriminate.
  - destruct (call_head_dec ts) as [[[[f inner] rest] (-> & Hf & Hh)]|Hno]; cbn [fst snd] in *.
    + assert (Hi : stream_size inner <= m).
      { rewrite !size_cons in Hs. cbn [tt_size] in Hs. fold (stream_size inner) in Hs. lia. }
      pose proof (args_spec m IH inner Hi) as HA. unfold parse_expr, parse_call. cbn [map ann]. cbn [a_args].
      rewrite Hf, Hh. cbn [andb]. specialize (HA n). destruct (parse_args P hf (map ann' inner) n) as [n1 args]. cbn [snd er_value erase option_map] in *.
      split.
      * intros H. inversion H as [? ? ? ? Hn|? ? ? args' _ _ HF|? ? ? p e' k' u' _ _ Hin Hr Hor]; subst.
        -- destruct Hn. exists f, inner, rest. auto.
        -- specialize (HA args'). rewrite (proj1 HA); [reflexivity|]. left. exact HF.
        -- specialize (HA []). rewrite (proj1 HA); [reflexivity|]. right. split; [reflexivity|]. eauto 8.
      * intros H. injection H as <- <- <-. destruct (HA (map erase args)) as (_ & HA'). destruct (HA' eq_refl) as [HF|(E & p & e' & k' & u' & Hin & Hr & Hor)].
        -- apply reads_call; assumption.
        -- rewrite E. eapply reads_call_dropped; eassumption.
    + assert (Hc : parse_call P hf n (map ann' ts) = None).
      { unfold parse_call. destruct ts as [|[f|c j|l|[| | |] l] [|[y|c' j'|l'|[| | |] inner] rest]]; try reflexivity. cbn [map ann].
        destruct (ident_allowed P f) eqn:E1; [|reflexivity]. destruct (hf f) eqn:E2; [|reflexivity]. destruct Hno. exists f, inner, rest. auto. }
      unfold parse_expr. rewrite Hc, toks_ann. split.
      * intros H. inversion H as [? v ? ? _ Hv|f inner rest ? Hf Hh|f inner rest ? ? ? ? Hf Hh]; subst;
          [apply value_spec; exact Hv|destruct Hno; exists f, inner, rest; auto..].
      * intros H. destruct (value_is ts n) as (v & k0 & u0 & Ev). rewrite Ev in H. injection H as <- <- <-.
        apply reads_value; [exact Hno|apply (value_spec ts n); exact Ev].
Qed.
Lemma reads_spec ts n e k u : reads P hf ts e k u <-> er_value (snd (parse_expr P hf n (map ann' ts))) = (e, k, u).
Proof. apply (reads_all (stream_size ts)). lia. Qed.

(** ** Tuples *)
Definition tuple_ok (m : nat) : Prop := forall ts, stream_size ts <= m -> forall n x k,
  tuple_value_at P hf ts x k <-> exists a, snd (parse_tuple_value P hf n (map ann' ts)) = Some (a, k) /\ er_tvu a = x.

Lemma tuple_inside m : tuple_ok m -> forall inner, stream_size inner <= m -> forall n x,
  (exists l, listed (tuple_value_at P hf) inner l /\ x = (map fst l, existsb snd l)) <->
  exists t, snd (parse_tuple P hf (map ann' inner) n) = Some t /\ er_tup t = x.
Proof.
  intros Hm inner Hs n x. unfold parse_tuple.
  pose proof (terminated_spec (parse_tuple_value P hf) er_tvu (tuple_value_at P hf) m (fun ts _ => Hm ts) inner Hs n) as HT.
  destruct (parse_terminated (parse_tuple_value P hf) (map ann' inner) None n) as [n' o]. cbn [snd] in *. split.
  - intros (l & Hl & ->). apply HT in Hl as (l0 & -> & <-). cbn. eexists. split; [reflexivity|]. apply any_unexpected_map.
  - intros (t & Et & <-). destruct o as [l0|]; [|discriminate]. injection Et as <-. exists (map er_tvu l0). split; [apply HT; eauto|].
    rewrite any_unexpected_map. reflexivity.
Qed.
Lemma parens_dec ts : {p | ts = TGroup Paren (fst p) :: snd p} + {forall inner, ~ in_parens ts inner}.
Proof.
  destruct ts as [|[f|c j|l|[| | |] l] rest]; try (right; intros ? (? & H); discriminate). left. exists (l, rest). reflexivity.
Qed.
Lemma parens_size inner rest m : stream_size (TGroup Paren inner :: rest) <= S m -> stream_size inner <= m.
Proof. rewrite size_cons. cbn [tt_size]. fold (stream_size inner). lia. Qed.
Lemma tuple_value_leaf ts n : (forall inner, ~ in_parens ts inner) ->
  parse_tuple_value P hf n (map ann' ts) = match parse_expr P hf n (map ann' ts) with (n', (e, k, u)) => (n', Some (TVValue e, u, k)) end.
Proof.
  intros Hno. unfold parse_tuple_value. destruct ts as [|[f|c j|l|[| | |] l] rest]; try reflexivity. destruct (Hno l). exists rest. reflexivity.
Qed.
Lemma tuple_value_leaf_spec ts n x k : (forall inner, ~ in_parens ts inner) ->
  tuple_value_at P hf ts x k <-> exists a, snd (parse_tuple_value P hf n (map ann' ts)) = Some (a, k) /\ er_tvu a = x.
Proof.
  intros Hno. rewrite (tuple_value_leaf ts n Hno). pose proof (reads_spec ts n) as HR.
  destruct (parse_expr P hf n (map ann' ts)) as [n' [[e0 k0] u0]]. cbn [snd er_value] in *. split.
  - intros H. inversion H as [? e ? u _ Hr|? inner l Hin]; subst; [|destruct (Hno _ Hin)].
    apply HR in Hr. injection Hr as <- <- <-. eexists. split; reflexivity.
  - intros (a & E & <-). injection E as <- <-. cbn. apply tuple_leaf; [exact Hno|]. apply HR. reflexivity.
Qed.
Lemma tuple_all m : tuple_ok m.
Proof.
  induction m as [|m IH]; intros ts Hs n x k.
  - apply tuple_value_leaf_spec. destruct ts as [|t ts]; [|rewrite size_cons in Hs; pose proof (size_pos t); lia]. intros ? (? & H). discriminate.
  - destruct (parens_dec ts) as [[[inner rest] ->]|Hno]; cbn [fst snd]; [|apply tuple_value_leaf_spec; exact Hno].
    apply parens_size in Hs. pose proof (tuple_inside m IH inner Hs n) as HT. unfold parse_tuple_value. cbn [map ann]. cbn [a_tuple].
    destruct (parse_tuple P hf (map ann' inner) n) as [n' o]. cbn [snd] in HT. split.
    + intros H. inversion H as [? e ? u Hno|? inner' l Hin Hl]; subst; [destruct (Hno inner); exists rest; reflexivity|].
      destruct Hin as (rest' & E). injection E as <- <-.
      destruct (proj1 (HT (map fst l, existsb snd l)) (ex_intro _ l (conj Hl eq_refl))) as ([t u] & -> & E). cbn. eexists. split; [reflexivity|].
      unfold er_tup in E. cbn in E. injection E as E1 E2. unfold er_tvu. cbn. unfold map_tuple in E1. rewrite E1, E2. reflexivity.
    + intros (a & E & <-). destruct o as [[t u]|]; [|discriminate]. injection E as <- <-. unfold er_tvu. cbn [map_tuple_value fst snd].
      destruct (proj2 (HT _) (ex_intro _ (t, u) (conj eq_refl eq_refl))) as (l & Hl & El). unfold er_tup, map_tuple in El. cbn in El. injection El as -> ->.
      eapply tuple_nested; [exists rest; reflexivity|exact Hl].
Qed.
Lemma tuple_spec inner n x : (exists l, listed (tuple_value_at P hf) inner l /\ x = (map fst l, existsb snd l)) <->
  exists t, snd (parse_tuple P hf (map ann' inner) n) = Some t /\ er_tup t = x.
Proof. apply (tuple_inside (stream_size inner)); [apply tuple_all|lia]. Qed.

(** ** Patterns *)
Definition pattern_ok (m : nat) : Prop := forall ts, stream_size ts <= m -> forall n x k,
  pattern_at P ts x k <-> exists a, snd (parse_pattern_value P n (map ann' ts)) = Some (a, k) /\ a = x.
Lemma pattern_inside m : pattern_ok m -> forall inner, stream_size inner <= m -> forall l,
  listed (pattern_at P) inner l <-> parse_pattern P (map ann' inner) = Some l.
Proof.
  intros Hm inner Hs l. unfold parse_pattern.
  rewrite (terminated_spec (parse_pattern_value P) (fun a => a) (pattern_at P) m (fun ts _ => Hm ts) inner Hs 0%N l).
  split; [intros (l0 & -> & <-); rewrite map_id; reflexivity|intros E; exists l; rewrite map_id; auto].
Qed.
Lemma pattern_all m : pattern_ok m.
Proof.
  induction m as [|m IH]; intros ts Hs n x k.
  - destruct ts as [|t ts]; [|rewrite size_cons in Hs; pose proof (size_pos t); lia]. cbn. split; [|intros (? & ? & _); discriminate].
    intros H. inversion H as [|? ? ? (? & E)]; subst. discriminate.
  - destruct (parens_dec ts) as [[[inner rest] ->]|Hno]; cbn [fst snd].
    + apply parens_size in Hs. pose proof (pattern_inside m IH inner Hs) as HT. unfold parse_pattern_value. cbn [map ann]. cbn [a_pattern snd].
      split.
      * intros H. inversion H as [|? ? l (r & E) Hl]; subst. injection E as <- <-. apply HT in Hl as ->. cbn. eauto.
      * intros (a & E & <-). destruct (parse_pattern P (map ann' inner)) as [l|]; [|discriminate]. injection E as <- <-.
        eapply pattern_tuple; [exists rest; reflexivity|apply HT; reflexivity].
    + split.
      * intros H. inversion H as [y r Hy|? inner l Hin]; subst; [|destruct (Hno _ Hin)]. cbn. rewrite Hy. eauto.
      * intros (a & E & <-). unfold parse_pattern_value in E. destruct ts as [|[y|c j|l|[| | |] l] rest]; try discriminate E; cbn in E.
        -- destruct (ident_allowed P y) eqn:Ey; [|discriminate]. injection E as <- <-. constructor. exact Ey.
        -- destruct (Hno l). exists rest. reflexivity.
Qed.
Lemma pattern_spec inner l : listed (pattern_at P) inner l <-> parse_pattern P (map ann' inner) = Some l.
Proof. apply (pattern_inside (stream_size inner)); [apply pattern_all|lia]. Qed.
Lemma loop_alias_spec t al : loop_alias_at P t al <-> parse_loop_alias P (ann' t) = Some al.
Proof.
  unfold parse_loop_alias. rewrite ann_tok. destruct t as [x|c j|l|[| | |] l]; cbn [ann]; try (split; [intros H; inversion H|discriminate]).
  - destruct (ident_allowed P x) eqn:E; split; intros H; try discriminate.
    + inversion H. reflexivity. + injection H as <-. constructor. exact E. + inversion H. congruence.
  - cbn [a_pattern]. split.
    + intros H. inversion H as [|? l' Hl]; subst. apply pattern_spec in Hl as ->. reflexivity.
    + destruct (parse_pattern P (map ann' l)) as [l'|] eqn:E; [|discriminate]. intros H. injection H as <-. constructor. apply pattern_spec. exact E.
Qed.

(** ** Sources *)
Lemma source_spec ts n x k : source_at P hf ts x k <-> exists a, snd (parse_source_value P hf n (map ann' ts)) = Some (a, k) /\ er_src a = x.
Proof.
  assert (Hex : forall n, (forall inner l, in_parens ts inner -> ~ listed (tuple_value_at P hf) inner l) -> forall x k, source_at P hf ts x k <->
    exists a, snd (match parse_expr P hf n (map ann' ts) with (n', (e, k, u)) => (n', Some (LSValue e, u, k)) end) = Some (a, k) /\ er_src a = x).
  { clear n x k. intros n Hno x k. pose proof (reads_spec ts n) as HR. destruct (parse_expr P hf n (map ann' ts)) as [n' [[e0 k0] u0]]. cbn [snd er_value] in *. split.
    - intros H. inversion H as [? inner l Hin Hl|? e ? u _ Hr]; subst; [destruct (Hno _ _ Hin Hl)|]. apply HR in Hr. injection Hr as <- <- <-. eexists. split; reflexivity.
    - intros (a & E & <-). injection E as <- <-. unfold er_src. cbn [map_source fst snd]. apply source_value; [exact Hno|]. apply HR. reflexivity. }
  destruct (parens_dec ts) as [[[inner rest] E]|Hno]; cbn [fst snd] in *.
  - pose proof (tuple_spec inner n) as HT.
    assert (Hs : parse_source_value P hf n (map ann' ts) =
      match parse_tuple P hf (map ann' inner) n with
      | (n', Some (t, u)) => (n', Some (LSTuple t, u, 1))
      | (n', None) => match parse_expr P hf n' (map ann' ts) with (n', (e, k, u)) => (n', Some (LSValue e, u, k)) end
      end) by (rewrite E; reflexivity).
    rewrite Hs. clear Hs.
    destruct (parse_tuple P hf (map ann' inner) n) as [n' [[t u]|]]; cbn [snd] in HT.
    + split.
      * intros H. assert (Hgood : exists l, listed (tuple_value_at P hf) inner l) by (destruct (proj2 (HT _) (ex_intro _ (t, u) (conj eq_refl eq_refl))) as (l & Hl & _); eauto).
        destruct Hgood as (l' & Hl'). inversion H as [? inner' l Hin Hl|? e ? u' Hno _]; subst.
        -- destruct Hin as (rest' & E). injection E as <- <-.
           destruct (proj1 (HT (map fst l, existsb snd l)) (ex_intro _ l (conj Hl eq_refl))) as (t' & Et & E). injection Et as <-. eexists. split; [reflexivity|].
           unfold er_tup in E. cbn [fst snd] in E. unfold er_src. cbn [map_source fst snd]. injection E as -> ->. reflexivity.
        -- destruct (Hno inner l'); [exists rest; reflexivity|exact Hl'].
      * intros (a & Ea & <-). injection Ea as <- <-. unfold er_src. cbn [map_source fst snd].
        destruct (proj2 (HT _) (ex_intro _ (t, u) (conj eq_refl eq_refl))) as (l & Hl & El). unfold er_tup in El. cbn [fst snd] in El. injection El as -> ->.
        eapply source_tuple; [exists rest; exact E|exact Hl].
    + rewrite <- (Hex n').
      * reflexivity.
      * intros inner' l (rest' & E') Hl. rewrite E in E'. injection E' as <- <-.
        destruct (proj1 (HT (map fst l, existsb snd l)) (ex_intro _ l (conj Hl eq_refl))) as (t & Et & _). discriminate.
  - rewrite (Hex n) by (intros inner l Hin; destruct (Hno _ Hin)). unfold parse_source_value.
    destruct ts as [|[f|c j|l|[| | |] l] rest]; try reflexivity. destruct (Hno l). exists rest. reflexivity.
Qed.
Lemma any_unexpected_src (l : list (loop_source_value * bool)) : er_srcs (any_unexpected l) = any_unexpected (map er_src l).
Proof.
  unfold er_srcs, any_unexpected. cbn [fst snd]. rewrite !map_map. f_equal. induction l as [|[t b] l IH]; [reflexivity|]. cbn. rewrite IH. reflexivity.
Qed.
Lemma source_list_spec inner n x : (exists l, listed (source_at P hf) inner l /\ x = (map fst l, existsb snd l)) <->
  exists t, snd (parse_source_list P hf n (ann' (TGroup Bracket inner))) = Some t /\ er_srcs t = x.
Proof.
  unfold parse_source_list. cbn [ann a_tok].
  pose proof (terminated_spec (parse_source_value P hf) er_src (source_at P hf) (stream_size inner) (fun ts _ _ => source_spec ts) inner (le_n _) n) as HT.
  destruct (parse_terminated (parse_source_value P hf) (map ann' inner) None n) as [n' o]. cbn [snd] in *. split.
  - intros (l & Hl & ->). apply HT in Hl as (l0 & -> & <-). cbn. eexists. split; [reflexivity|]. apply any_unexpected_src.
  - intros (t & Et & <-). destruct o as [l0|]; [|discriminate]. injection Et as <-. exists (map er_src l0). split; [apply HT; eauto|].
    rewrite any_unexpected_src. reflexivity.
Qed.

(** ** Loops *)
Lemma ann_inj l l' : map ann' l = map ann' l' -> l = l'.
Proof. intros H. rewrite <- (toks_ann P hf l), H. apply toks_ann. Qed.
Lemma is_word_spec x t : is_word x t = true <-> t = TIdent x.
Proof.
  destruct t as [y|c j|l|d l]; cbn; try (split; discriminate). rewrite str_eqb_eq. split; congruence.
Qed.
Lemma source_list_bracket n t x : snd (parse_source_list P hf n (ann' t)) = Some x -> exists inner, t = TGroup Bracket inner.
Proof. unfold parse_source_list. rewrite ann_tok. destruct t as [y|c j|l|[| | |] l]; try discriminate. eauto. Qed.

Lemma loops_spec ts : forall n items u rest,
  loops_at P hf ts items u rest <-> exists x, snd (parse_loops P hf (map ann' ts) n) = Some x /\ er_loops x = (items, map ann' rest, u).
Proof.
  remember (List.length ts) as len eqn:Hlen. revert ts Hlen. induction len as [len IH] using lt_wf_ind. intros ts Hlen n items u rest.
  destruct ts as [|f r0].
  { cbn. split.
    - intros H. inversion H; subst. eexists. split; reflexivity.
    - intros (x & E & Ex). injection E as <-. cbn in Ex. injection Ex as <- Er <-. destruct rest; [|discriminate]. constructor. intros r E. discriminate. }
  cbn [map parse_loops]. rewrite ann_tok. destruct (is_word (txt "for") f) eqn:Ef.
  - apply is_word_spec in Ef as ->.
    destruct r0 as [|pat [|kw [|src r]]]; cbn [map];
      try (split; [intros H; inversion H as [? Hn|]; subst; destruct (Hn _ eq_refl)|intros (? & ? & _); discriminate]).
    assert (HA := loop_alias_spec pat). destruct (parse_loop_alias P (ann' pat)) as [al|].
    2:{ split; [|intros (? & ? & _); discriminate]. intros H. inversion H as [? Hn|? ? ? ? ? ? ? ? Ha]; subst; [destruct (Hn _ eq_refl)|]. apply HA in Ha. discriminate. }
    rewrite ann_tok. destruct (is_word (txt "in") kw) eqn:Ek.
    2:{ split; [|intros (? & ? & _); discriminate]. intros H. inversion H as [? Hn|]; subst; [destruct (Hn _ eq_refl)|].
        assert (is_word (txt "in") (TIdent (txt "in")) = true) by (apply is_word_spec; reflexivity). congruence. }
    apply is_word_spec in Ek as ->.
    destruct (parse_source_list P hf n (ann' src)) as [n1 o] eqn:Es.
    assert (HS : forall inner, src = TGroup Bracket inner -> forall x, (exists l, listed (source_at P hf) inner l /\ x = (map fst l, existsb snd l)) <-> exists t, o = Some t /\ er_srcs t = x).
    { intros inner -> x. rewrite (source_list_spec inner n x), Es. reflexivity. }
    assert (HB : forall x, o = Some x -> exists inner, src = TGroup Bracket inner).
    { intros x Hx. apply (source_list_bracket n src x). rewrite Es. exact Hx. }
    clear Es. destruct o as [[vals uv]|].
    2:{ split; [|intros (? & ? & _); discriminate]. intros H. inversion H as [? Hn|? ? inner l ? ? ? ? Ha Hl]; subst; [destruct (Hn _ eq_refl)|].
        destruct (proj1 (HS inner eq_refl _) (ex_intro _ l (conj Hl eq_refl))) as (? & ? & _). discriminate. }
    destruct (HB _ eq_refl) as (inner & ->). specialize (HS inner eq_refl).
    assert (IH' := IH (List.length r) ltac:(subst len; cbn; lia) r eq_refl n1). clear IH.
    destruct (parse_loops P hf (map ann' r) n1) as [n2 o2]. cbn [snd] in *. split.
    + intros H. inversion H as [? Hn|? ? ? l ? items' u' ? Ha Hl Hr]; subst; [destruct (Hn _ eq_refl)|].
      apply HA in Ha. injection Ha as <-.
      destruct (proj1 (HS _) (ex_intro _ l (conj Hl eq_refl))) as (? & E & Ex). injection E as <-. unfold er_srcs in Ex. cbn [fst snd] in Ex. injection Ex as <- <-.
      apply IH' in Hr as ([[its l1] w] & -> & E). cbn in E. injection E as <- -> ->. cbn. eexists. split; reflexivity.
    + intros (x & E & Ex). destruct o2 as [[[its l1] w]|]; [|discriminate]. injection E as <-. cbn in Ex. injection Ex as <- -> <-.
      destruct (proj2 (HS _) (ex_intro _ (vals, uv) (conj eq_refl eq_refl))) as (l & Hl & El). unfold er_srcs in El. cbn [fst snd] in El. injection El as El ->.
      unfold map_loop at 1. cbn [loop_pattern loop_values]. rewrite El. constructor; [apply HA; reflexivity|exact Hl|]. apply IH'. eexists. split; reflexivity.
  - cbn. split.
    + intros H. inversion H as [|? ? ? ? ? ? ? ? Ha]; subst; [eexists; split; reflexivity|].
      assert (is_word (txt "for") (TIdent (txt "for")) = true) by (apply is_word_spec; reflexivity). congruence.
    + intros (x & E & Ex). injection E as <-. cbn [er_loops map] in Ex. injection Ex as <- Er <-. apply (ann_inj (f :: r0)) in Er as <-. constructor.
      intros r E. injection E as -> ->. assert (is_word (txt "for") (TIdent (txt "for")) = true) by (apply is_word_spec; reflexivity). congruence.
Qed.
Lemma loops_tail ts : forall n its l u, snd (parse_loops P hf (map ann' ts) n) = Some (its, l, u) -> exists rest, l = map ann' rest.
Proof.
  remember (List.length ts) as len eqn:Hlen. revert ts Hlen. induction len as [len IH] using lt_wf_ind. intros ts Hlen n its l u.
  destruct ts as [|f r0]; [intros H; injection H as _ <- _; exists []; reflexivity|].
  cbn [map parse_loops]. destruct (is_word (txt "for") _); [|intros H; injection H as _ <- _; exists (f :: r0); reflexivity].
  destruct r0 as [|pat [|kw [|src r]]]; cbn [map]; try discriminate.
  destruct (parse_loop_alias P _) as [al|]; [|discriminate]. destruct (is_word _ _); [|discriminate]. destruct (parse_source_list P hf n _) as [n1 [[vs w]|]]; [|discriminate].
  specialize (IH (List.length r) ltac:(subst len; cbn; lia) r eq_refl n1). destruct (parse_loops P hf (map ann' r) n1) as [n2 [[[its' l1] w']|]]; [|discriminate].
  cbn in *. intros H. injection H as _ <- _. eapply IH. reflexivity.
Qed.

(** ** Definitions *)
Definition er_def (d : spec_item) : spec_item := (fst d, erase (snd d)).
Lemma definition_spec n ts d u after : definition_at P hf ts d u after <-> exists d0 n', defines P hf n ts d0 u n' after /\ er_def d0 = d.
Proof.
  split.
  - intros H. inversion H as [x j vs e k ? Hx Hr]; subst. apply (reads_spec vs n) in Hr.
    destruct (parse_expr P hf n (map ann' vs)) as [n' [[e0 k0] u0]] eqn:E. cbn in Hr. injection Hr as <- <- <-.
    exists (x, e0), n'. split; [constructor; assumption|reflexivity].
  - intros (d0 & n1 & H & <-). destruct H as [x j vs e k u1 n2 Hx Hp]. unfold er_def. cbn. constructor; [exact Hx|]. apply (reads_spec vs n).
    unfold expr_at in Hp. rewrite Hp. reflexivity.
Qed.
Lemma definitions_spec c n ts items used u rest :
  definitions_at P hf c ts items used u rest <-> exists items0 trailing, definition_list P hf c n ts items0 trailing u rest /\ map er_def items0 = items /\
    used = (if trailing then Some c else match items0 with [_] => None | _ => Some c end).
Proof.
  split.
  - intros H. revert n. induction H as [ts d u Hd|ts d u s r Hd Hs Hn|ts d u s r ds used u' rest Hd Hs Ha Hr IH]; intros n.
    + destruct (proj1 (definition_spec n _ _ _ _) Hd) as (d0 & n' & Hd0 & <-). exists [d0], false. split; [|auto].
      exists n, ts, [], d0, false, u, n', []. repeat split; [constructor|exact Hd0].
    + destruct (proj1 (definition_spec n _ _ _ _) Hd) as (d0 & n' & Hd0 & <-). exists [d0], true. split; [|auto].
      exists n, ts, [], d0, false, u, n', (s :: r). repeat split; [constructor|exact Hd0|]. exists s. auto.
    + destruct (proj1 (definition_spec n _ _ _ _) Hd) as (d0 & n' & Hd0 & <-). destruct (IH n') as (items0 & tr & (n1 & ts1 & ds0 & d1 & u1 & u2 & n2 & after & HD & Hd1 & -> & -> & Htr) & <- & _).
      exists (d0 :: ds0 ++ [d1]), tr. split; [|split; [reflexivity|]].
      * exists n1, ts1, (d0 :: ds0), d1, (u || u1), u2, n2, after. split; [econstructor; eassumption|]. split; [exact Hd1|]. split; [reflexivity|]. split; [apply orb_assoc|exact Htr].
      * destruct tr; [reflexivity|]. destruct ds0; reflexivity.
  - intros (items0 & tr & (n1 & ts1 & ds & d & u1 & u2 & n2 & after & HD & Hd & -> & -> & Htr) & <- & Hu).
    assert (HG : exists used', definitions_at P hf c ts (map er_def (ds ++ [d])) used' (u1 || u2) rest /\ used' = (if tr then Some c else match ds ++ [d] with [_] => None | _ => Some c end)).
    { clear Hu. induction HD as [m ts|m ts d' u' m1 s ts1 ds u'' m2 ts2 Hd' Hs Ha HD IH].
      - assert (Hd' : definition_at P hf ts (er_def d) u2 after) by (apply (definition_spec m); eauto).
        destruct tr; [destruct Htr as (s & -> & Hs & Hn)|destruct Htr as (-> & ->)]; cbn; eexists; (split; [|reflexivity]); [eapply last_definition_sep|apply last_definition]; eassumption.
      - destruct (IH Hd) as (used' & HR & _). exists (Some c). split.
        + cbn [app map]. rewrite <- orb_assoc. eapply more_definitions_at; [|exact Hs|exact Ha|exact HR]. apply (definition_spec m). eauto.
        + destruct tr; [reflexivity|]. destruct ds; reflexivity. }
    destruct HG as (used' & HR & ->). rewrite Hu. exact HR.
Qed.
Lemma spec_list_spec n ts items used u rest :
  (exists c, definitions_at P hf c ts items used u rest) <->
  exists x, snd (parse_spec P hf (map ann' ts) None None n) = Some x /\ er_spec x = (items, used, map ann' rest, u).
Proof.
  split.
  - intros (c & H). apply (definitions_spec c n) in H as (items0 & tr & HL & <- & ->).
    destruct (proj2 (list_iff P hf n ts items0 _ rest u) (ex_intro _ c (ex_intro _ tr (conj HL eq_refl)))) as (n' & E). eexists. rewrite E. split; reflexivity.
  - intros ([[[its us] l] w] & E & Ex). cbn in Ex. injection Ex as <- -> -> ->.
    destruct (parse_spec P hf (map ann' ts) None None n) as [n' o] eqn:Ep. cbn in E. subst o.
    destruct (proj1 (list_iff P hf n ts its used rest u) (ex_intro _ n' Ep)) as (c & tr & HL & ->). exists c. apply (definitions_spec c n). exists its, tr. auto.
Qed.
Lemma spec_tail n ts its us l u : snd (parse_spec P hf (map ann' ts) None None n) = Some (its, us, l, u) -> exists rest, l = map ann' rest.
Proof.
  destruct (parse_spec P hf (map ann' ts) None None n) as [n' o] eqn:Ep. cbn. intros ->.
  destruct (spec_sound P hf _ _ _ _ _ _ _ _ _ (le_n _) Ep) as (c & tr & rest & -> & _). eauto.
Qed.

(** ** The header *)
Lemma header_spec n ts loops spec u rest : header_at P hf ts loops spec u rest <->
  exists x, parse_header P hf n (map ann' ts) = Some x /\ er_header x = (loops, spec, map ann' rest, u).
Proof.
  unfold parse_header. pose proof (loops_spec ts n) as HL. pose proof (loops_tail ts n) as HT.
  destruct (parse_loops P hf (map ann' ts) n) as [n1 o]. cbn [snd] in *. split.
  - intros H. inversion H as [? lo u1 ts1 sp u2 ? Hlo Hsp]; subst. apply HL in Hlo as ([[lo0 l1] w] & -> & E). cbn in E. injection E as <- -> ->.
    assert (He : option_map (map (map_loop erase)) (match lo0 with [] => None | _ => Some lo0 end) = match map (map_loop erase) lo0 with [] => None | _ => Some (map (map_loop erase) lo0) end) by (destruct lo0; reflexivity).
    pose proof (peek_ident_spec P hf ts1) as Hpk. inversion Hsp as [? Hno|? c items used ? ? Ha Hd]; subst.
    + destruct (peek_ident P (map ann' rest)); [destruct Hno; apply Hpk; reflexivity|]. eexists. split; [reflexivity|]. cbn [er_header]. rewrite He, orb_false_r. reflexivity.
    + rewrite (proj2 Hpk Ha).
      destruct (proj1 (spec_list_spec n1 ts1 items used u2 rest) (ex_intro _ c Hd)) as ([[[its us] l] w'] & -> & E). cbn in E. injection E as <- -> -> ->.
      eexists. split; [reflexivity|]. cbn [er_header]. rewrite He. reflexivity.
  - intros (x & E & Ex). destruct o as [[[lo0 l1] w]|]; [|discriminate]. destruct (HT _ _ _ eq_refl) as (ts1 & ->).
    assert (Hlo : loops_at P hf ts (map (map_loop erase) lo0) w ts1) by (apply HL; eexists; split; reflexivity).
    assert (He : option_map (map (map_loop erase)) (match lo0 with [] => None | _ => Some lo0 end) = match map (map_loop erase) lo0 with [] => None | _ => Some (map (map_loop erase) lo0) end) by (destruct lo0; reflexivity).
    pose proof (peek_ident_spec P hf ts1) as Hpk. destruct (peek_ident P (map ann' ts1)).
    + pose proof (spec_list_spec n1 ts1) as HS. pose proof (spec_tail n1 ts1) as HT'. destruct (snd (parse_spec P hf (map ann' ts1) None None n1)) as [[[[its us] l2] w2]|]; [|discriminate].
      injection E as <-. cbn [er_header] in Ex. rewrite He in Ex. injection Ex as <- <- El <-. destruct (HT' _ _ _ _ eq_refl) as (r' & ->). apply ann_inj in El as <-.
      econstructor; [exact Hlo|].
      destruct (proj2 (HS (map_items erase its) us w2 r')) as (c & Hd); [eexists; split; reflexivity|]. cbn [option_map]. eapply some_spec; [apply Hpk; reflexivity|exact Hd].
    + injection E as <-. cbn [er_header] in Ex. rewrite He in Ex. injection Ex as <- <- El <-. apply ann_inj in El as <-.
      rewrite <- (orb_false_r w). econstructor; [exact Hlo|]. constructor. intros Ha. apply Hpk in Ha. discriminate.
Qed.
Lemma header_tail n ts loops spec l u : parse_header P hf n (map ann' ts) = Some (loops, spec, l, u) -> exists rest, l = map ann' rest.
Proof.
  unfold parse_header. pose proof (loops_tail ts n) as HT. destruct (parse_loops P hf (map ann' ts) n) as [n1 [[[lo l1] w]|]]; [|discriminate].
  destruct (HT _ _ _ eq_refl) as (ts1 & ->). destruct (peek_ident P (map ann' ts1)).
  - pose proof (spec_tail n1 ts1) as HT'. destruct (snd (parse_spec P hf (map ann' ts1) None None n1)) as [[[[its us] l2] w2]|]; [|discriminate].
    intros H. injection H as _ _ <- _. eapply HT'. reflexivity.
  - intros H. injection H as _ _ <- _. eauto.
Qed.
(** Definitions without a separator end the input. *)
Lemma unseparated_at_end ts loops sp u rest : header_at P hf ts loops (Some sp) u rest -> is_comma_used sp = None -> rest = [].
Proof.
  intros H Hu. inversion H as [? ? ? ? ? ? ? _ Hs]; subst. inversion Hs as [|? c items used ? ? _ Hd]; subst. cbn in Hu. subst used.
  inversion Hd; subst; reflexivity.
Qed.

(** ** The input *)
Lemma erase_ast_eq (lo : option (list loop_item)) (sp : option alias_spec) (block : list stmt) :
  erase_ast {| ast_loops := lo; ast_spec := sp; ast_block := block |} =
  {| ast_loops := option_map (map (map_loop erase)) lo; ast_spec := option_map (map_spec erase) sp; ast_block := block |}.
Proof. reflexivity. Qed.

Lemma func_spec n ts a : func_input P hf ts a <->
  exists ast, p_ast (parse_func_macro P hf n ts) = Ok (Some ast) /\ erase_ast ast = a.
Proof.
  unfold parse_func_macro. split.
  - intros H. destruct H as [loops spec rest block k Hh Hb Hk].
    pose proof (unseparated_at_end ts loops) as Hun.
    destruct (proj1 (header_spec n ts loops spec false rest) Hh) as ([[[lo sp] l] w] & -> & E). cbn [er_header] in E. injection E as El Es -> ->.
    rewrite toks_ann, Hb. cbn [orb].
    assert (Hd : erase_ast {| ast_loops := lo; ast_spec := sp; ast_block := block |} = {| ast_loops := loops; ast_spec := spec; ast_block := block |})
      by (rewrite erase_ast_eq, El, Es; reflexivity).
    destruct (skipn k rest) as [|t r] eqn:Ek.
    + eexists. split; [reflexivity|exact Hd].
    + destruct Hk as [Hk|(s & c & Hk & Hc & Hs)]; [discriminate|]. injection Hk as -> ->. destruct (kind_separator c s Hc) as (H1 & H2).
      rewrite H1. replace (trailing_mixed s sp) with false; [eexists; split; [reflexivity|exact Hd]|].
      unfold trailing_mixed. destruct sp as [[its us]|]; [|reflexivity]. cbn in Es. specialize (Hs _ (eq_sym Es)). cbn in *. subst us. rewrite H2. destruct c; reflexivity.
  - intros (ast & E & <-). pose proof (header_spec n ts) as HH. pose proof (header_tail n ts) as HT.
    destruct (parse_header P hf n (map ann' ts)) as [[[[lo sp] l] w]|]; [|discriminate]. destruct (HT _ _ _ _ eq_refl) as (rest & ->). clear HT.
    assert (Hh : header_at P hf ts (option_map (map (map_loop erase)) lo) (option_map (map_spec erase) sp) w rest) by (apply HH; eexists; split; reflexivity).
    clear HH. rewrite toks_ann in E. destruct (pre_block P rest) as [[[block k] u2]|] eqn:Eb; [|discriminate].
    destruct w; [destruct (skipn k rest) as [|t [|? ?]]; [discriminate|destruct (_ && _); discriminate..]|].
    destruct u2; [destruct (skipn k rest) as [|t [|? ?]]; [discriminate|destruct (_ && _); discriminate..]|]. cbn [orb] in E.
    destruct (skipn k rest) as [|t r] eqn:Ek.
    + injection E as <-. rewrite erase_ast_eq. econstructor; [exact Hh|exact Eb|left; exact Ek].
    + destruct (is_separator t && negb (trailing_mixed t sp)) eqn:Et; [|discriminate]. destruct r; [|discriminate]. injection E as <-. rewrite erase_ast_eq.
      econstructor; [exact Hh|exact Eb|]. right. exists t, (is_comma t). split; [exact Ek|]. apply andb_true_iff in Et as (H1 & H2).
      split; [apply separator_kind; exact H1|]. intros sp' E. destruct sp as [[its us]|]; [|discriminate]. cbn [option_map] in *. injection E as <-. cbn [is_comma_used map_spec].
      destruct us as [us|].
      * cbn in H2. destruct (is_comma t), us; try discriminate; reflexivity.
      * rewrite (unseparated_at_end _ _ _ _ _ Hh eq_refl), skipn_nil in Ek. discriminate.
Qed.

Lemma attr_spec n ts item a : attr_input P hf ts item a <->
  exists ast, p_ast (parse_attr_macro P hf n ts item) = Ok (Some ast) /\ erase_ast ast = a.
Proof.
  unfold parse_attr_macro. split.
  - intros H. destruct H as [loops spec rest block Hh Hb Hk].
    destruct (proj1 (header_spec n ts loops spec false rest) Hh) as ([[[lo sp] l] w] & -> & E). cbn [er_header] in E. injection E as El Es -> ->.
    rewrite toks_ann, Hb.
    assert (Hd : erase_ast {| ast_loops := lo; ast_spec := sp; ast_block := block |} = {| ast_loops := loops; ast_spec := spec; ast_block := block |})
      by (rewrite erase_ast_eq, El, Es; reflexivity).
    assert (Hs : skip_separator lo sp rest = Some []).
    { destruct Hk as [->|(s & c & -> & Hc & Hs)]; [reflexivity|]. cbn. rewrite (proj1 (kind_separator c s Hc)). destruct sp; [reflexivity|]. destruct Hs. symmetry. exact Es. }
    rewrite Hs. eexists. split; [reflexivity|exact Hd].
  - intros (ast & E & <-). pose proof (header_spec n ts) as HH. pose proof (header_tail n ts) as HT.
    destruct (parse_header P hf n (map ann' ts)) as [[[[lo sp] l] w]|]; [|discriminate]. destruct (HT _ _ _ _ eq_refl) as (rest & ->). clear HT.
    assert (Hh : header_at P hf ts (option_map (map (map_loop erase)) lo) (option_map (map_spec erase) sp) w rest) by (apply HH; eexists; split; reflexivity).
    clear HH. rewrite toks_ann in E. destruct (skip_separator lo sp rest) as [[|? ?]|] eqn:Es; try discriminate. destruct w; [discriminate|].
    destruct (pre_block P [TGroup Brace item]) as [[[block [|[|k]]] [|]]|] eqn:Eb; try discriminate. injection E as <-. rewrite erase_ast_eq.
    econstructor; [exact Hh|exact Eb|]. destruct rest as [|t r]; [left; reflexivity|]. right. cbn in Es. destruct (is_separator t) eqn:Et; [|discriminate].
    exists t, (is_comma t). destruct sp as [sp|]; [|destruct lo; discriminate]. injection Es as ->. split; [reflexivity|]. split; [apply separator_kind; exact Et|discriminate].
Qed.

Lemma never_fails_func n ts : exists o, p_ast (parse_func_macro P hf n ts) = Ok o.
Proof.
  unfold parse_func_macro. destruct (parse_header P hf n _) as [[[[lo sp] l] w]|]; [|eexists; reflexivity]. destruct (pre_block P _) as [[[block k] u2]|]; [|eexists; reflexivity].
  destruct (skipn k _) as [|t [|? ?]]; [eexists; reflexivity|destruct (_ && _); eexists; reflexivity..].
Qed.
Lemma never_fails_attr n ts item : exists o, p_ast (parse_attr_macro P hf n ts item) = Ok o.
Proof.
  unfold parse_attr_macro. destruct (parse_header P hf n _) as [[[[lo sp] l] w]|]; [|eexists; reflexivity]. destruct (skip_separator _ _ _) as [[|? ?]|]; try (eexists; reflexivity).
  destruct w; [eexists; reflexivity|]. destruct (pre_block P _) as [[[block [|[|k]]] [|]]|]; eexists; reflexivity.
Qed.
Lemma func_otherwise n ts : (forall a, ~ func_input P hf ts a) <-> p_ast (parse_func_macro P hf n ts) = Ok None.
Proof.
  destruct (never_fails_func n ts) as ([ast|] & E); rewrite E; split; try discriminate; try reflexivity.
  - intros H. destruct (H (erase_ast ast)). apply (func_spec n). eauto.
  - intros _ a H. apply (func_spec n) in H as (? & E' & _). congruence.
Qed.
Lemma attr_otherwise n ts item : (forall a, ~ attr_input P hf ts item a) <-> p_ast (parse_attr_macro P hf n ts item) = Ok None.
Proof.
  destruct (never_fails_attr n ts item) as ([ast|] & E); rewrite E; split; try discriminate; try reflexivity.
  - intros H. destruct (H (erase_ast ast)). apply (attr_spec n). eauto.
  - intros _ a H. apply (attr_spec n) in H as (? & E' & _). congruence.
Qed.
Lemma func_unambiguous ts a a' : func_input P hf ts a -> func_input P hf ts a' -> a = a'.
Proof. intros H H'. apply (func_spec 0%N) in H as (? & E & <-). apply (func_spec 0%N) in H' as (? & E' & <-). congruence. Qed.
Lemma attr_unambiguous ts item a a' : attr_input P hf ts item a -> attr_input P hf ts item a' -> a = a'.
Proof. intros H H'. apply (attr_spec 0%N) in H as (? & E & <-). apply (attr_spec 0%N) in H' as (? & E' & <-). congruence. Qed.
Lemma reads_exactly n ts e k u : reads P hf ts e k u <->
  exists n' e0, parse_expr P hf n (map ann' ts) = (n', (e0, k, u)) /\ erase e0 = e.
Proof.
  rewrite (reads_spec ts n e k u). destruct (parse_expr P hf n (map ann' ts)) as [n' [[e0 k0] u0]]. cbn [snd er_value]. split.
  - intros H. injection H as <- -> ->. eauto.
  - intros (n1 & e1 & H & <-). injection H as _ -> -> ->. reflexivity.
Qed.
End Proofs.
