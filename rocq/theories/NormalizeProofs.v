(** normalize equals its specification; consequences. *)
From Verif Require Import Base Normalize SpecNormalize.

Section P.
Context (alnum numeric : chr -> bool).
Hypothesis us_not_alnum : alnum underscore = false.
Hypothesis us_not_numeric : numeric underscore = false.
Hypothesis numeric_alnum : forall c, numeric c = true -> alnum c = true.

Notation norm := (normalize alnum numeric).
Notation nloop := (normalize_loop alnum numeric).
Notation nstep := (normalize_step alnum numeric).
Notation coll := (collapse alnum underscore).
Notation kp := (keep alnum underscore).

(** Is the flag set after collapsing [s]? *)
Fixpoint flag (b : bool) (s : str) : bool :=
  match s with [] => b | c :: r => flag (negb (kp c)) r end.

Lemma step_inside st c : n_result st <> [] ->
  nstep st c false =
  {| n_result := n_result st ++ coll (n_inserted st) [c]; n_inserted := negb (kp c) |}.
Proof.
  intros H. destruct st as [r i]. cbn in H. destruct r as [|x r]; [congruence|].
  unfold normalize_step. cbn [n_result n_inserted collapse]. fold (kp c). unfold keep.
  destruct (alnum c || N.eqb c underscore) eqn:E; cbn -[N.eqb underscore].
  - rewrite andb_false_r. reflexivity.
  - destruct i; cbn; rewrite ?app_nil_r; reflexivity.
Qed.

Lemma collapse_app a : forall b s, coll b (a ++ s) = coll b a ++ coll (flag b a) s.
Proof.
  induction a as [|c a IH]; intros b s; [reflexivity|]. cbn [app collapse flag].
  destruct (kp c); cbn [negb]; [|destruct b]; rewrite IH; reflexivity.
Qed.

Lemma flag_app a : forall b s, flag b (a ++ s) = flag (flag b a) s.
Proof. induction a as [|c a IH]; intros b s; [reflexivity|]. cbn. apply IH. Qed.

Lemma app_not_nil {A} (l l' : list A) : l <> [] -> l ++ l' <> [].
Proof. destruct l; [congruence|discriminate]. Qed.

(** The loop once something has been produced, up to the last character. *)
Lemma loop_inside w : forall st z, n_result st <> [] ->
  nloop st (w ++ [z]) =
  nstep {| n_result := n_result st ++ coll (n_inserted st) w; n_inserted := flag (n_inserted st) w |} z true.
Proof.
  induction w as [|c w IH]; intros st z H; cbn [app normalize_loop].
  - cbn. rewrite app_nil_r. destruct st; reflexivity.
  - assert (E : match w ++ [z] with [] => true | _ :: _ => false end = false) by (destruct w; reflexivity).
    rewrite E, (step_inside st c H), IH by (cbn; apply app_not_nil; exact H).
    cbn [n_result n_inserted collapse flag]. rewrite <- app_assoc. f_equal. f_equal.
    destruct (kp c); cbn [negb app]; [|destruct (n_inserted st)]; reflexivity.
Qed.

Definition fin (st : nstate) : str :=
  let result := if n_inserted st then removelast (n_result st) else n_result st in
  match result with [] => [underscore] | _ => result end.

Lemma norm_fin s : norm s = fin (nloop {| n_result := []; n_inserted := false |} s).
Proof. reflexivity. Qed.

(** Leading separators are skipped. *)
Lemma loop_skip s : nloop {| n_result := []; n_inserted := false |} s =
  nloop {| n_result := []; n_inserted := false |} (drop_while (fun c => negb (alnum c)) s).
Proof.
  induction s as [|c s IH]; [reflexivity|]. cbn [drop_while].
  destruct (alnum c) eqn:E; cbn [negb]; [reflexivity|].
  rewrite <- IH. cbn [normalize_loop]. f_equal.
  unfold normalize_step. cbn -[N.eqb underscore]. rewrite E. cbn -[N.eqb underscore].
  destruct (N.eqb c underscore) eqn:Eu; [|reflexivity].
  apply N.eqb_eq in Eu as ->. rewrite us_not_numeric. reflexivity.
Qed.

Lemma drop_while_first p s : match drop_while p s with [] => True | c :: _ => p c = false end.
Proof. induction s as [|c s IH]; cbn; [exact I|]. destruct (p c) eqn:E; [exact IH|exact E]. Qed.

Lemma step_first c last : alnum c = true ->
  nstep {| n_result := []; n_inserted := false |} c last =
  {| n_result := (if numeric c then [underscore] else []) ++ [c]; n_inserted := false |}.
Proof.
  intros E. unfold normalize_step. cbn -[N.eqb underscore]. rewrite E. cbn -[N.eqb underscore].
  destruct (numeric c); [reflexivity|].
  destruct (N.eqb c underscore) eqn:Eu; [apply N.eqb_eq in Eu; subst; congruence|]. reflexivity.
Qed.

Lemma drop_while_end_app_keep p w z : p z = false -> drop_while_end p (w ++ [z]) = w ++ [z].
Proof.
  intros H. unfold drop_while_end. rewrite rev_app_distr. cbn. rewrite H. cbn.
  rewrite rev_involutive. reflexivity.
Qed.
Lemma drop_while_end_app_drop p w z : p z = true -> drop_while_end p (w ++ [z]) = drop_while_end p w.
Proof. intros H. unfold drop_while_end. rewrite rev_app_distr. cbn. rewrite H. reflexivity. Qed.

Lemma removelast_app1 {A} (l : list A) x : removelast (l ++ [x]) = l.
Proof. apply removelast_last. Qed.

(** Popping after collapsing = collapsing without the trailing run. *)
Lemma pop_collapse w : flag false w = true ->
  removelast (coll false w) = coll false (drop_while_end (fun c => negb (kp c)) w) /\ coll false w <> [].
Proof.
  induction w as [|z w IH] using rev_ind; intros H; [discriminate|].
  rewrite flag_app in H. cbn in H. rewrite drop_while_end_app_drop by exact H.
  rewrite collapse_app. apply negb_true_iff in H. cbn [collapse]. rewrite H.
  destruct (flag false w) eqn:Ef.
  - rewrite app_nil_r. apply IH. reflexivity.
  - rewrite removelast_app1. split; [|destruct (coll false w); discriminate].
    clear IH. destruct w as [|y w _] using rev_ind; [reflexivity|].
    rewrite flag_app in Ef. cbn in Ef. rewrite drop_while_end_app_keep by exact Ef. reflexivity.
Qed.

Lemma no_pop_collapse w : flag false w = false -> drop_while_end (fun c => negb (kp c)) w = w.
Proof.
  destruct w as [|z w _] using rev_ind; intros H; [reflexivity|].
  rewrite flag_app in H. cbn in H. apply drop_while_end_app_keep. exact H.
Qed.

Lemma fin_collapse p w : p = [] \/ True ->
  forall x, alnum x = true ->
  fin {| n_result := p ++ x :: coll false w; n_inserted := flag false w |} =
  p ++ x :: coll false (drop_while_end (fun c => negb (kp c)) w).
Proof.
  intros _ x Hx. unfold fin. cbn [n_result n_inserted]. destruct (flag false w) eqn:E.
  - destruct (pop_collapse w E) as [E1 E2].
    assert (Er : removelast (p ++ x :: coll false w) =
                 p ++ x :: coll false (drop_while_end (fun c => negb (kp c)) w)).
    { rewrite removelast_app by discriminate. cbn [removelast].
      destruct (coll false w) eqn:Ec; [congruence|]. rewrite <- E1. reflexivity. }
    rewrite Er. destruct p; reflexivity.
  - rewrite no_pop_collapse by exact E. destruct p; reflexivity.
Qed.

Lemma step_last st z : n_result st <> [] ->
  nstep st z true =
  if alnum z then {| n_result := n_result st ++ [z]; n_inserted := false |} else st.
Proof.
  intros H. destruct st as [r i]. cbn in H. destruct r as [|x r]; [congruence|].
  unfold normalize_step. cbn -[N.eqb underscore].
  destruct (alnum z) eqn:E; cbn -[N.eqb underscore].
  - destruct (N.eqb z underscore) eqn:Eu; [apply N.eqb_eq in Eu; subst; congruence|]. reflexivity.
  - destruct (N.eqb z underscore); cbn; [reflexivity|]. rewrite andb_false_r. reflexivity.
Qed.

Lemma kp_alnum c : alnum c = true -> kp c = true.
Proof. unfold keep. intros ->. reflexivity. Qed.

Lemma drop_while_end_cons p x w : p x = false -> drop_while_end p (x :: w) = x :: drop_while_end p w.
Proof.
  intros H. induction w as [|z w IH] using rev_ind.
  - unfold drop_while_end. cbn. rewrite H. reflexivity.
  - change (x :: w ++ [z]) with ((x :: w) ++ [z]). destruct (p z) eqn:E.
    + rewrite !drop_while_end_app_drop by exact E. exact IH.
    + rewrite !drop_while_end_app_keep by exact E. reflexivity.
Qed.

Theorem normalize_spec s : norm s = normal_form alnum numeric underscore s.
Proof.
  rewrite norm_fin, loop_skip. unfold normal_form.
  pose proof (drop_while_first (fun c => negb (alnum c)) s) as Hf.
  destruct (drop_while _ s) as [|c r]; [reflexivity|]. apply negb_false_iff in Hf.
  cbn [normalize_loop]. rewrite step_first by exact Hf.
  set (p := if numeric c then [underscore] else []).
  destruct r as [|z w _] using rev_ind.
  - unfold drop_last_separator. cbn -[underscore]. rewrite Hf.
    unfold drop_while_end. cbn -[underscore]. rewrite (kp_alnum c Hf). cbn -[underscore]. rewrite (kp_alnum c Hf).
    unfold fin. cbn. destruct p; reflexivity.
  - rewrite loop_inside by (destruct p; discriminate). cbn [n_result n_inserted].
    rewrite step_last by (cbn; destruct p; discriminate).
    unfold drop_last_separator. change (c :: w ++ [z]) with ((c :: w) ++ [z]). rewrite rev_app_distr.
    cbn [rev app]. destruct (alnum z) eqn:Ez.
    + change ((c :: w) ++ [z]) with (c :: (w ++ [z])).
      change (rev w ++ [c]) with (rev w ++ rev [c]).
      rewrite drop_while_end_cons by (rewrite (kp_alnum c Hf); reflexivity).
      rewrite drop_while_end_app_keep by (rewrite (kp_alnum z Ez); reflexivity).
      cbn [collapse]. rewrite (kp_alnum c Hf).
      unfold fin. cbn [n_result n_inserted]. rewrite <- !app_assoc. cbn [app].
      rewrite collapse_app. cbn [collapse]. rewrite (kp_alnum z Ez). destruct p; reflexivity.
    + rewrite rev_app_distr, rev_involutive. cbn [rev app].
      rewrite drop_while_end_cons by (rewrite (kp_alnum c Hf); reflexivity).
      cbn [collapse]. rewrite (kp_alnum c Hf). rewrite <- app_assoc. cbn [app].
      apply fin_collapse; auto.
Qed.

(** ** C15 *)
Lemma collapse_chars b s : Forall (fun c => alnum c = true \/ c = underscore) (coll b s).
Proof.
  revert b; induction s as [|c s IH]; intros b; [constructor|]. cbn [collapse].
  destruct (kp c) eqn:E; [|destruct b; [apply IH|constructor; [right; reflexivity|apply IH]]].
  constructor; [|apply IH]. unfold keep in E. apply orb_true_iff in E as [E|E]; [auto|].
  apply N.eqb_eq in E. auto.
Qed.

Lemma normalize_chars s : Forall (fun c => alnum c = true \/ c = underscore) (norm s).
Proof.
  rewrite normalize_spec. unfold normal_form. destruct (drop_while _ s) as [|c r].
  - constructor; [auto|constructor].
  - apply Forall_app. split; [|apply collapse_chars]. destruct (numeric c); [|constructor].
    constructor; [right; reflexivity|constructor].
Qed.

(** Shape of the result when there is alphanumeric content. *)
Lemma normalize_shape s : 
  (Forall (fun c => alnum c = false) s /\ norm s = [underscore]) \/
  exists lead c mid seps,
    s = lead ++ c :: mid ++ seps /\
    Forall (fun c => alnum c = false) lead /\ alnum c = true /\
    Forall (fun c => alnum c = false) seps /\
    (mid = [] \/ exists m z, mid = m ++ [z] /\ alnum z = true) /\
    norm s = (if numeric c then [underscore] else []) ++ c :: coll false mid
             ++ coll false (drop_while_end (fun c => negb (kp c)) (removelast seps)).
Proof.
  rewrite normalize_spec. unfold normal_form.
  assert (Hs : exists lead, s = lead ++ drop_while (fun c => negb (alnum c)) s /\ Forall (fun c => alnum c = false) lead).
  { induction s as [|c s (lead & IH1 & IH2)]; [exists []; auto|]. cbn [drop_while].
    destruct (alnum c) eqn:E; cbn [negb]; [exists []; auto|].
    exists (c :: lead). split; [cbn; congruence|]. constructor; assumption. }
  destruct Hs as (lead & Hs & Hlead).
  pose proof (drop_while_first (fun c => negb (alnum c)) s) as Hf.
  destruct (drop_while _ s) as [|c r].
  - left. rewrite app_nil_r in Hs. subst. auto.
  - right. apply negb_false_iff in Hf.
    assert (Hr : exists mid seps, r = mid ++ seps /\ Forall (fun c => alnum c = false) seps /\
        (mid = [] \/ exists m z, mid = m ++ [z] /\ alnum z = true)).
    { clear Hs. induction r as [|z r IH] using rev_ind; [exists [], []; auto|].
      destruct (alnum z) eqn:Ez.
      - exists (r ++ [z]), []. rewrite app_nil_r. split; [reflexivity|]. split; [constructor|]. right; eauto.
      - destruct IH as (mid & seps & -> & H1 & H2). exists mid, (seps ++ [z]). rewrite app_assoc.
        split; [reflexivity|]. split; [apply Forall_app; auto|exact H2]. }
    destruct Hr as (mid & seps & -> & Hseps & Hmid).
    exists lead, c, mid, seps. split; [exact Hs|]. split; [exact Hlead|]. split; [exact Hf|].
    split; [exact Hseps|]. split; [exact Hmid|]. f_equal.
    assert (Hd : drop_last_separator alnum (c :: mid ++ seps) = c :: mid ++ removelast seps).
    { unfold drop_last_separator. destruct seps as [|z seps _] using rev_ind.
      - rewrite app_nil_r. cbn [removelast]. rewrite app_nil_r.
        destruct Hmid as [->|(m & z & -> & Hz)]; [cbn; rewrite Hf; reflexivity|].
        change (c :: m ++ [z]) with ((c :: m) ++ [z]). rewrite rev_app_distr. cbn [rev app]. rewrite Hz. reflexivity.
      - apply Forall_app in Hseps as [_ Hz]. inversion Hz as [|? ? Hz' _]; subst.
        rewrite removelast_app1. change (c :: mid ++ seps ++ [z]) with ((c :: mid ++ seps ++ [z])).
        replace (c :: mid ++ seps ++ [z]) with ((c :: mid ++ seps) ++ [z]) by (cbn; rewrite app_assoc; reflexivity).
        rewrite rev_app_distr. cbn [rev app]. rewrite Hz'. rewrite <- (rev_involutive (c :: mid ++ seps)). reflexivity. }
    rewrite Hd. rewrite drop_while_end_cons by (rewrite (kp_alnum c Hf); reflexivity).
    cbn [collapse]. rewrite (kp_alnum c Hf). f_equal.
    generalize (removelast seps). clear Hs Hd seps Hseps. intros seps.
    destruct Hmid as [->|(m & z & -> & Hz)]; [reflexivity|].
    assert (E : drop_while_end (fun c0 => negb (kp c0)) ((m ++ [z]) ++ seps) =
                (m ++ [z]) ++ drop_while_end (fun c0 => negb (kp c0)) seps).
    { induction seps as [|y seps IH] using rev_ind.
      - rewrite app_nil_r. unfold drop_while_end at 2. cbn. rewrite app_nil_r.
        apply drop_while_end_app_keep. rewrite (kp_alnum z Hz). reflexivity.
      - rewrite app_assoc. destruct (negb (kp y)) eqn:E.
        + rewrite !drop_while_end_app_drop by exact E. exact IH.
        + rewrite !drop_while_end_app_keep by exact E. rewrite app_assoc. reflexivity. }
    rewrite E, collapse_app. f_equal. f_equal. rewrite flag_app. cbn. rewrite (kp_alnum z Hz). reflexivity.
Qed.

Lemma normalize_nonempty s : norm s <> [].
Proof.
  destruct (normalize_shape s) as [[_ ->]|(lead & c & mid & seps & _ & _ & _ & _ & _ & ->)];
    [discriminate|destruct (numeric c); discriminate].
Qed.

Lemma normalize_first_not_digit s : match norm s with [] => False | c :: _ => numeric c = false end.
Proof.
  destruct (normalize_shape s) as [[_ ->]|(lead & c & mid & seps & _ & _ & _ & _ & _ & ->)];
    [exact us_not_numeric|]. destruct (numeric c) eqn:E; [exact us_not_numeric|exact E].
Qed.

Lemma last_app {A} (l l' : list A) d : l' <> [] -> last (l ++ l') d = last l' d.
Proof.
  intros H. induction l as [|x l IH]; [reflexivity|]. cbn [app last].
  destruct (l ++ l') eqn:E; [apply app_eq_nil in E as [-> ->]; congruence|]. exact IH.
Qed.

Lemma collapse_last m z b : alnum z = true -> exists w, coll b (m ++ [z]) = w ++ [z].
Proof. intros Hz. rewrite collapse_app. cbn. rewrite (kp_alnum z Hz). eauto. Qed.

Lemma drop_while_end_in p s x : p x = false -> In x s -> In x (drop_while_end p s).
Proof.
  intros Hp Hin. unfold drop_while_end. apply in_rev. rewrite rev_involutive. apply in_rev in Hin.
  induction (rev s) as [|y l IH]; [contradiction|]. cbn. destruct (p y) eqn:E; [|exact Hin].
  destruct Hin as [->|Hin]; [congruence|auto].
Qed.

Lemma drop_while_end_in' p s x : In x (drop_while_end p s) -> In x s.
Proof.
  unfold drop_while_end. intros H. apply in_rev in H. rewrite in_rev. induction (rev s) as [|y l IH]; [contradiction|].
  cbn in H. destruct (p y); [right; auto|exact H].
Qed.

Lemma drop_while_end_last p s d : drop_while_end p s <> [] -> p (last (drop_while_end p s) d) = false.
Proof.
  unfold drop_while_end. intros H.
  pose proof (drop_while_first p (rev s)) as Hf. destruct (drop_while p (rev s)) as [|y l]; [exfalso; apply H; reflexivity|].
  cbn [rev]. rewrite last_last. exact Hf.
Qed.

(** When the result ends with an underscore, exactly. *)
Lemma normalize_trailing lead c mid seps :
  alnum c = true ->
  Forall (fun c => alnum c = false) seps ->
  (mid = [] \/ exists m z, mid = m ++ [z] /\ alnum z = true) ->
  Forall (fun c => alnum c = false) lead ->
  last (norm (lead ++ c :: mid ++ seps)) 0%N = underscore <-> In underscore (removelast seps).
Proof.
  intros Hc Hseps Hmid Hlead.
  assert (E : norm (lead ++ c :: mid ++ seps) =
      (if numeric c then [underscore] else []) ++ c :: coll false mid
             ++ coll false (drop_while_end (fun c => negb (kp c)) (removelast seps))).
  { destruct (normalize_shape (lead ++ c :: mid ++ seps)) as [[Hno _]|(lead' & c' & mid' & seps' & Heq & Hl' & Hc' & Hs' & Hm' & ->)].
    - apply Forall_app in Hno as [_ Hno]. inversion Hno; congruence.
    - assert (lead = lead' /\ c :: mid ++ seps = c' :: mid' ++ seps') as [-> Heq2].
      { clear Hmid Hseps Hm' Hs'. revert lead' Heq Hl'. induction lead as [|x lead IH]; intros [|y lead'] Heq Hl'; cbn in Heq.
        - auto.
        - injection Heq as -> _. inversion Hl'; congruence.
        - injection Heq as -> _. inversion Hlead; congruence.
        - injection Heq as -> Heq. inversion Hlead; inversion Hl'; subst.
          destruct (IH H2 lead' Heq H6) as [-> ->]. auto. }
      injection Heq2 as <- Heq2.
      assert (mid = mid' /\ seps = seps') as [-> ->]; [|reflexivity].
      { clear - Heq2 Hseps Hmid Hs' Hm'.
        apply (f_equal (@rev chr)) in Heq2. rewrite !rev_app_distr in Heq2.
        apply Forall_rev in Hseps, Hs'.
        assert (rev mid = rev mid' /\ rev seps = rev seps') as [E1 E2].
        { assert (H1 : match rev mid with [] => True | z :: _ => alnum z = true end).
          { destruct Hmid as [->|(m & z & -> & Hz)]; [exact I|]. rewrite rev_app_distr. exact Hz. }
          assert (H2 : match rev mid' with [] => True | z :: _ => alnum z = true end).
          { destruct Hm' as [->|(m & z & -> & Hz)]; [exact I|]. rewrite rev_app_distr. exact Hz. }
          clear Hmid Hm'. revert Heq2 Hseps Hs' H1 H2. generalize (rev seps) (rev seps') (rev mid) (rev mid').
          intros a a' b b'. revert a'. induction a as [|x a IH]; intros [|y a'] Heq Ha Ha' H1 H2; cbn in Heq.
          - auto.
          - subst b. cbn in H1. inversion Ha'; congruence.
          - subst b'. cbn in H2. inversion Ha; congruence.
          - injection Heq as -> Heq. inversion Ha; inversion Ha'; subst.
            destruct (IH a' Heq) as [-> ->]; auto. }
        split; [rewrite <- (rev_involutive mid), E1, rev_involutive|rewrite <- (rev_involutive seps), E2, rev_involutive]; reflexivity. } }
  rewrite E. rewrite last_app by discriminate.
  set (t := drop_while_end (fun c => negb (kp c)) (removelast seps)).
  assert (Hkus : kp underscore = true) by (unfold keep; rewrite N.eqb_refl; apply orb_true_r).
  split.
  - intros Hl. destruct t as [|y t'] eqn:Et.
    + cbn [collapse] in Hl. rewrite app_nil_r in Hl.
      destruct Hmid as [->|(m & z & -> & Hz)].
      * cbn in Hl. congruence.
      * destruct (collapse_last m z false Hz) as [w Ew]. rewrite Ew in Hl.
        change (c :: w ++ [z]) with ((c :: w) ++ [z]) in Hl. rewrite last_last in Hl. congruence.
    + pose proof (drop_while_end_last (fun c => negb (kp c)) (removelast seps) 0%N) as Hk.
      fold t in Hk. rewrite Et in Hk. specialize (Hk ltac:(discriminate)). apply negb_false_iff in Hk.
      assert (Hin : In (last (y :: t') 0%N) (removelast seps)).
      { apply (drop_while_end_in' (fun c => negb (kp c))). fold t. rewrite Et.
        destruct (exists_last (l := y :: t')) as (w & z & ->); [discriminate|]. rewrite last_last.
        apply in_or_app. right; left; reflexivity. }
      assert (Hna : alnum (last (y :: t') 0%N) = false).
      { rewrite Forall_forall in Hseps. apply Hseps.
        clear - Hin. generalize dependent (last (y :: t') 0%N). intros v Hin.
        destruct seps as [|s0 s1 _] using rev_ind; [exact Hin|]. rewrite removelast_app1 in Hin. apply in_or_app; auto. }
      unfold keep in Hk. rewrite Hna in Hk. apply N.eqb_eq in Hk. rewrite <- Hk. exact Hin.
  - intros Hin.
    assert (Hin' : In underscore t) by (apply drop_while_end_in; [rewrite Hkus; reflexivity|exact Hin]).
    assert (Hne : t <> []) by (intros Hnil; rewrite Hnil in Hin'; contradiction).
    pose proof (drop_while_end_last (fun c => negb (kp c)) (removelast seps) 0%N Hne) as Hk.
    fold t in Hk. apply negb_false_iff in Hk.
    destruct (exists_last Hne) as (w & z & Ez). rewrite Ez in Hk. rewrite last_last in Hk. rewrite Ez.
    rewrite collapse_app. cbn [collapse]. rewrite Hk.
    assert (Hz : z = underscore).
    { assert (In z seps).
      { assert (In z (removelast seps)) by (apply (drop_while_end_in' (fun c => negb (kp c))); fold t; rewrite Ez; apply in_or_app; right; left; reflexivity).
        destruct seps as [|s0 s1 _] using rev_ind; [assumption|]. rewrite removelast_app1 in *. apply in_or_app; auto. }
      rewrite Forall_forall in Hseps. specialize (Hseps z H). unfold keep in Hk. rewrite Hseps in Hk.
      apply N.eqb_eq in Hk. exact Hk. }
    subst z. rewrite !app_assoc, app_comm_cons, last_last. reflexivity.
Qed.

(** ** C16 *)
Lemma collapse_content b s : filter alnum (coll b s) = filter alnum s.
Proof.
  revert b; induction s as [|c s IH]; intros b; [reflexivity|]. cbn [collapse filter].
  destruct (kp c) eqn:E.
  - cbn [filter]. rewrite IH. reflexivity.
  - assert (alnum c = false) as -> by (unfold keep in E; apply orb_false_iff in E as [E _]; exact E).
    destruct b; [apply IH|]. cbn [filter]. rewrite us_not_alnum. apply IH.
Qed.

Lemma filter_none p (s : str) : Forall (fun c => p c = false) s -> filter p s = [].
Proof. induction 1 as [|c s H _ IH]; [reflexivity|]. cbn. rewrite H. exact IH. Qed.

Lemma normalize_content s : filter alnum (norm s) = filter alnum s.
Proof.
  destruct (normalize_shape s) as [[Hno ->]|(lead & c & mid & seps & -> & Hlead & Hc & Hseps & Hmid & ->)].
  - rewrite (filter_none _ _ Hno). cbn -[underscore]. rewrite us_not_alnum. reflexivity.
  - rewrite !filter_app. cbn [filter]. rewrite !filter_app, Hc, !collapse_content.
    rewrite (filter_none _ _ Hlead), (filter_none _ _ Hseps).
    assert (E : filter alnum (if numeric c then [underscore] else []) = [])
      by (destruct (numeric c); cbn -[underscore]; rewrite ?us_not_alnum; reflexivity).
    rewrite E. cbn [app]. f_equal. f_equal. apply filter_none.
    rewrite Forall_forall in *. intros x Hx. apply Hseps.
    apply drop_while_end_in' in Hx. destruct seps as [|s0 s1 _] using rev_ind; [exact Hx|].
    rewrite removelast_app1 in Hx. apply in_or_app; auto.
Qed.

Lemma collapse_clean b s : Forall (fun c => kp c = true) s -> coll b s = s.
Proof.
  intros H; revert b; induction H as [|c s Hc Hs IH]; intros b; [reflexivity|]. cbn [collapse].
  rewrite Hc, IH. reflexivity.
Qed.

(** An identifier-like string: kept characters, first and last alphanumeric, first no digit. *)
Lemma normalize_clean s c z m :
  s = c :: m \/ s = [c] -> Forall (fun c => kp c = true) s ->
  alnum c = true -> numeric c = false ->
  last s 0%N = z -> alnum z = true -> norm s = s.
Proof.
  intros Hs Hk Hc Hn Hl Hz. rewrite normalize_spec. unfold normal_form.
  assert (exists r, s = c :: r) as [r ->] by (destruct Hs; eauto). cbn [drop_while]. rewrite Hc. cbn [negb].
  rewrite Hn. cbn [app].
  assert (E : drop_last_separator alnum (c :: r) = c :: r).
  { destruct (exists_last (l := c :: r)) as (w & y & E); [discriminate|]. rewrite E in *. rewrite last_last in Hl. subst y.
    unfold drop_last_separator. rewrite rev_app_distr. cbn [rev app]. rewrite Hz. reflexivity. }
  rewrite E.
  assert (E2 : drop_while_end (fun c0 => negb (kp c0)) (c :: r) = c :: r).
  { destruct (exists_last (l := c :: r)) as (w & y & E2); [discriminate|]. rewrite E2 in *. rewrite last_last in Hl. subst y.
    apply drop_while_end_app_keep. rewrite (kp_alnum z Hz). reflexivity. }
  rewrite E2. apply collapse_clean. exact Hk.
Qed.

(** ** C17: idempotence, exactly *)
Lemma normalize_idem_iff s :
  norm (norm s) = norm s <-> (norm s = [underscore] \/ last (norm s) 0%N <> underscore).
Proof.
  destruct (normalize_shape s) as [[_ E]|(lead & c & mid & seps & Hs & Hlead & Hc & Hseps & Hmid & E)].
  - split; [auto|]. intros _. rewrite E. unfold normalize. cbn -[underscore N.eqb].
    unfold normalize_step. cbn -[underscore]. rewrite us_not_alnum, us_not_numeric. reflexivity.
  - set (body := c :: coll false mid ++ coll false (drop_while_end (fun c => negb (kp c)) (removelast seps))) in *.
    set (p := if numeric c then [underscore] else []) in *.
    assert (Hk : Forall (fun c => kp c = true) body).
    { pose proof (normalize_chars s) as H. rewrite E in H. apply Forall_app in H as [_ H].
      eapply Forall_impl; [|exact H]. intros x [Hx| ->]; [apply kp_alnum; exact Hx|].
      unfold keep. rewrite N.eqb_refl. apply orb_true_r. }
    (* second pass: the lead is the inserted underscore *)
    assert (Hnf : norm (norm s) = p ++ collapse alnum underscore false
               (drop_while_end (fun c => negb (kp c)) (drop_last_separator alnum body))).
    { rewrite normalize_spec, E. unfold normal_form.
      assert (Ed : drop_while (fun c0 => negb (alnum c0)) (p ++ body) = body).
      { unfold p, body. destruct (numeric c); cbn [app drop_while]; rewrite ?us_not_alnum; cbn [negb]; rewrite Hc; reflexivity. }
      rewrite Ed. unfold body at 1. reflexivity. }
    rewrite Hnf, E. rewrite last_app by (unfold body; discriminate).
    assert (Hbl : body <> []) by (unfold body; discriminate).
    destruct (exists_last Hbl) as (w & z & Ez).
    assert (Hz : kp z = true). { rewrite Ez in Hk. apply Forall_app in Hk as [_ Hk]. inversion Hk; assumption. }
    assert (Hw : Forall (fun c => kp c = true) w). { rewrite Ez in Hk. apply Forall_app in Hk as [Hk _]. exact Hk. }
    assert (Edl : drop_last_separator alnum body = if alnum z then body else w).
    { rewrite Ez. unfold drop_last_separator. rewrite rev_app_distr. cbn [rev app].
      destruct (alnum z); [reflexivity|]. apply rev_involutive. }
    assert (Hkeep : forall l, Forall (fun c => kp c = true) l -> drop_while_end (fun c => negb (kp c)) l = l).
    { intros l Hl. destruct l as [|y l _] using rev_ind; [reflexivity|]. apply drop_while_end_app_keep.
      apply Forall_app in Hl as [_ Hl]. inversion Hl as [|? ? Hy]; subst. rewrite Hy. reflexivity. }
    rewrite Edl. destruct (alnum z) eqn:Eaz.
    + rewrite (Hkeep body Hk), (collapse_clean false body Hk).
      split; [|reflexivity]. intros _. right. rewrite Ez, last_last. congruence.
    + rewrite (Hkeep w Hw), (collapse_clean false w Hw). 
      assert (z = underscore) as ->. { unfold keep in Hz. rewrite Eaz in Hz. apply N.eqb_eq in Hz. exact Hz. }
      rewrite Ez, last_last. split.
      * intros H. apply app_inv_head in H. exfalso. apply (f_equal (@length chr)) in H. rewrite app_length in H. cbn in H. lia.
      * intros [H|H]; [|congruence]. exfalso.
        assert (Hl1 : length (p ++ w ++ [underscore]) = 1) by (rewrite H; reflexivity).
        rewrite !app_length in Hl1. cbn in Hl1. assert (w = []) as -> by (destruct w; cbn in *; [reflexivity|lia]).
        cbn in Ez. unfold body in Ez. injection Ez as Ez _. congruence.
Qed.
(** No leading underscore, except the inserted one before a digit or the lone one. *)
Lemma normalize_leading s r : norm s = underscore :: r ->
  r = [] \/ exists d r', r = d :: r' /\ numeric d = true.
Proof.
  destruct (normalize_shape s) as [[_ ->]|(lead & c & mid & seps & _ & _ & Hc & _ & _ & ->)].
  - intros H. injection H as <-. auto.
  - destruct (numeric c) eqn:E; cbn [app]; intros H; injection H; intros; subst; [right; eauto|congruence].
Qed.
End P.
