(** token_distance.rs between positions in and around invisible groups. *)
From Coq Require Import Lia.
From Verif Require Import Base Token InvisibleParse SpecInvisible InvisibleProofs TokenDistance SpecDistance DistanceProofs SpecCursor.
Open Scope list_scope.
Local Notation advance := InvisibleParse.advance.

(** The entries of token trees, with ends of groups that have been entered in between. *)
Inductive spread : list tt -> list entry -> Prop :=
| spread_nil : spread [] []
| spread_cons : forall t r l, spread r l -> spread (t :: r) (flatten t ++ l)
| spread_end : forall ts l, spread ts l -> spread ts (EEnd :: l).
Lemma spread_app xs r l : spread r l -> spread (xs ++ r) (flat_map flatten xs ++ l).
Proof. intros H. induction xs as [|x xs IH]; [exact H|]. cbn [app flat_map]. rewrite <- app_assoc. constructor. exact IH. Qed.
Lemma leaf_flatten t : List.length (filter is_leaf (flatten t)) = Parse.leaf_count t.
Proof.
  induction t as [x|c j|l|d ts IH] using tt_ind'; try reflexivity. cbn [flatten Parse.leaf_count filter is_leaf]. rewrite filter_app, app_length. cbn [filter is_leaf List.length]. rewrite Nat.add_0_r.
  induction IH as [|t ts H _ IHl]; [reflexivity|]. cbn [flat_map fold_right]. rewrite filter_app, app_length, H, IHl. reflexivity.
Qed.
Lemma spread_leaves ts l : spread ts l -> List.length (filter is_leaf l) = leaf_sum ts.
Proof.
  intros H. induction H as [|t r l _ IH|ts l _ IH]; [reflexivity| |exact IH]. rewrite filter_app, app_length, leaf_flatten, IH. reflexivity.
Qed.
Definition ahead (buf : list entry) (c : cursor) (ts : list tt) : Prop :=
  exists seg rest, skipn (ptr c) buf = seg ++ EEnd :: rest /\ scope c = ptr c + List.length seg /\ spread ts seg /\
    match seg with EEnd :: _ => False | _ => True end.
Lemma spread_tail ts l : spread ts (EEnd :: l) -> spread ts l.
Proof.
  intros H. remember (EEnd :: l) as m eqn:E. destruct H as [|t r l' H'|ts l' H']; [discriminate| |injection E as ->; exact H']. destruct (flatten_cons t) as (e & r' & Ef & N). rewrite Ef in E. injection E as -> _. contradiction.
Qed.
Lemma create_ahead buf : forall seg p ts rest, skipn p buf = seg ++ EEnd :: rest -> spread ts seg ->
  ahead buf (create buf p (p + List.length seg)) ts /\ p <= ptr (create buf p (p + List.length seg)) /\ scope (create buf p (p + List.length seg)) = p + List.length seg.
Proof.
  induction seg as [|e seg IH]; intros p ts rest Hs Hp.
  - unfold create. rewrite Hs. cbn [app skip_ends List.length]. rewrite Nat.add_0_r, Nat.eqb_refl. cbn [ptr scope]. split; [|split; lia].
    exists [], rest. cbn [ptr scope List.length app]. repeat split; [exact Hs|lia|exact Hp].
  - destruct e as [d off|t|].
    + unfold create. rewrite Hs. cbn [app skip_ends ptr scope]. split; [|split; [lia|reflexivity]]. exists (EGroup d off :: seg), rest. cbn [ptr scope]. auto.
    + unfold create. rewrite Hs. cbn [app skip_ends ptr scope]. split; [|split; [lia|reflexivity]]. exists (ELeaf t :: seg), rest. cbn [ptr scope]. auto.
    + assert (Hs' : skipn (S p) buf = seg ++ EEnd :: rest) by (rewrite <- Nat.add_1_r; apply (skip_over buf p [EEnd]); exact Hs).
      rewrite (create_after_group buf p _ _ Hs) by (cbn [List.length]; lia).
      destruct (IH (S p) ts rest Hs' (spread_tail _ _ Hp)) as (A & B & C). replace (p + List.length (EEnd :: seg)) with (S p + List.length seg) by (cbn [List.length]; lia).
      split; [exact A|]. split; [lia|exact C].
Qed.
Lemma ahead_step buf c t r : ahead buf c (t :: r) -> exists c', go_on buf c = Some c' /\ ahead buf c' (advance 1 (t :: r)) /\ scope c' = scope c /\ ptr c <= ptr c'.
Proof.
  intros (seg & rest & Hs & Hc & Hp & Hh).
  inversion Hp as [|t' r' l Hl E1 E2|ts l Hl E1 E2]; subst; [|contradiction].
  unfold go_on. destruct t as [x|ch j|lt|d xs].
  1-3: (cbn [flatten app] in Hs; rewrite (skip_nth _ _ _ _ Hs); unfold token_tree; rewrite (skip_nth _ _ _ _ Hs);
    assert (Hs' : skipn (S (ptr c)) buf = l ++ EEnd :: rest) by (rewrite <- Nat.add_1_r; eapply (skip_over buf (ptr c) [_]); exact Hs);
    destruct (create_ahead buf l (S (ptr c)) r rest Hs' Hl) as (A & B & C);
    assert (Sc : scope c = S (ptr c) + List.length l) by (rewrite Hc; cbn [flatten app List.length]; lia);
    eexists; split; [reflexivity|]; rewrite Sc; cbn [advance]; rewrite ?advance_0; split; [exact A|]; split; [exact C|lia]).
  assert (Ef : flatten (TGroup d xs) ++ l = EGroup d (S (List.length (flat_map flatten xs))) :: flat_map flatten xs ++ EEnd :: l) by (cbn [flatten app]; rewrite <- app_assoc; reflexivity).
  rewrite Ef in *. assert (Hn := skip_nth _ _ _ _ Hs). rewrite Hn.
  assert (Hs1 : skipn (S (ptr c)) buf = (flat_map flatten xs ++ EEnd :: l) ++ EEnd :: rest) by (rewrite <- Nat.add_1_r; eapply (skip_over buf (ptr c) [_]); exact Hs).
  destruct (match d with NoDelim => true | _ => false end) eqn:Ed.
  - destruct d; try discriminate.
    destruct (create_ahead buf (flat_map flatten xs ++ EEnd :: l) (S (ptr c)) (xs ++ r) rest Hs1 (spread_app _ _ _ (spread_end _ _ Hl))) as (A & B & C).
    assert (Sc : scope c = S (ptr c) + List.length (flat_map flatten xs ++ EEnd :: l)) by (rewrite Hc; cbn [List.length]; lia).
    eexists. split; [reflexivity|]. rewrite Sc. cbn [advance]. rewrite ?advance_0. split; [exact A|]. split; [exact C|lia].
  - assert (Hs2 : skipn (ptr c + S (List.length (flat_map flatten xs))) buf = (EEnd :: l) ++ EEnd :: rest).
    { replace (ptr c + S (List.length (flat_map flatten xs))) with (S (ptr c) + List.length (flat_map flatten xs)) by lia.
      apply (skip_over buf (S (ptr c)) (flat_map flatten xs)). rewrite Hs1, <- app_assoc. reflexivity. }
    destruct (create_ahead buf (EEnd :: l) _ r rest Hs2 (spread_end _ _ Hl)) as (A & B & C).
    assert (Sc : scope c = ptr c + S (List.length (flat_map flatten xs)) + List.length (EEnd :: l)) by (rewrite Hc; cbn [List.length]; rewrite app_length; cbn [List.length]; lia).
    assert (Q : advance 1 (TGroup d xs :: r) = r) by (destruct d; try discriminate; cbn [advance]; rewrite ?advance_0; reflexivity).
    rewrite Q. exists (create buf (ptr c + S (List.length (flat_map flatten xs))) (scope c)).
    split; [destruct d; try discriminate; unfold token_tree; rewrite Hn; reflexivity|]. rewrite Sc. split; [exact A|]. split; [exact C|lia].
Qed.
Lemma ahead_go buf k : forall c ts, ahead buf c ts -> k <= all_entries ts ->
  exists c', go k buf c = Some c' /\ ahead buf c' (advance k ts) /\ scope c' = scope c /\ ptr c <= ptr c'.
Proof.
  induction k as [|k IH]; intros c ts H L; [exists c; rewrite advance_0; auto|]. destruct ts as [|t r]; [cbn in L; lia|].
  destruct (ahead_step _ _ _ _ H) as (c1 & E1 & A1 & S1 & P1). cbn [go]. rewrite E1.
  assert (L1 : k <= all_entries (advance 1 (t :: r))) by (rewrite advance_entries; lia).
  destruct (IH _ _ A1 L1) as (c2 & E2 & A2 & S2 & P2). exists c2. split; [exact E2|]. rewrite <- advance_plus in A2. split; [exact A2|]. split; [congruence|lia].
Qed.
Lemma ahead_leaves buf c ts : ahead buf c ts -> leaves_between buf (ptr c) (scope c) = leaf_sum ts /\ ptr c <= scope c.
Proof.
  intros (seg & rest & Hs & Hc & Hp & _). split; [|lia]. unfold leaves_between. rewrite Hs, Hc. replace (ptr c + List.length seg - ptr c) with (List.length seg) by lia.
  rewrite firstn_app, firstn_all, Nat.sub_diag. cbn [firstn]. rewrite app_nil_r. apply spread_leaves, Hp.
Qed.
Lemma go_position buf k : forall c c', position buf c -> go k buf c = Some c' -> position buf c'.
Proof.
  induction k as [|k IH]; intros c c' Hp H; cbn [go] in H; [injection H as <-; exact Hp|].
  destruct (go_on buf c) as [c1|] eqn:E; [|discriminate]. apply (IH c1); [|exact H]. unfold go_on in E.
  destruct (nth_error buf (ptr c)) as [[[] off|t|]|] eqn:N; try (exact (step buf c c1 Hp E)). injection E as <-. exact (enter_none buf c off Hp N).
Qed.
Lemma reads_ahead buf c ts : reads buf c ts -> ahead buf c ts.
Proof.
  intros (Hc & rest & Hs). exists (flat_map flatten ts), rest. repeat split; [exact Hs|exact Hc| |].
  - rewrite <- (app_nil_r ts), <- (app_nil_r (flat_map flatten _)). rewrite app_nil_r at 2. apply spread_app. constructor.
  - destruct ts as [|t r]; [exact I|]. cbn [flat_map]. destruct (flatten_cons t) as (e & r' & -> & N). cbn [app]. destruct e; [exact I|exact I|contradiction].
Qed.
Theorem distance_through : forall ts c l k, position (buffer ts) c -> reads (buffer ts) c l -> k <= all_entries l ->
  exists c', go k (buffer ts) c = Some c' /\ token_distance (buffer ts) c c' = Ok (distance k l).
Proof.
  intros ts c l k Hp Hr L. apply reads_ahead in Hr. destruct (ahead_go _ k _ _ Hr L) as (c' & E & A & S & Q). exists c'. split; [exact E|].
  rewrite (distance_same_scope _ _ _ Hp (go_position _ _ _ _ Hp E) (eq_sym S)). rewrite Nat.min_l, Nat.max_r by exact Q. f_equal.
  destruct (ahead_leaves _ _ _ Hr) as [B1 B2]. destruct (ahead_leaves _ _ _ A) as [C1 C2].
  pose proof (leaves_between_add (buffer ts) (ptr c) (ptr c') (scope c') Q C2) as Ad. rewrite C1, S, B1 in Ad.
  pose proof (f_equal leaf_sum (flats_cut k l)) as F. rewrite leaf_sum_app, !leaf_flats in F. unfold distance. fold (leaf_sum (taken k l)). lia.
Qed.
