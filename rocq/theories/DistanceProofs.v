(** Proofs about distances and ids. *)
From Verif Require Import Base Token TokenDistance UniqueId SpecDistance SpecSubst.

(** ** Counting *)
Lemma skipn_skipn {A} a : forall b (l : list A), skipn a (skipn b l) = skipn (a + b) l.
Proof.
  intros b. revert a. induction b as [|b IH]; intros a l; [rewrite Nat.add_0_r; reflexivity|].
  destruct l as [|x l]; [rewrite !skipn_nil; reflexivity|]. rewrite Nat.add_succ_r. cbn [skipn]. apply IH.
Qed.
Lemma leaves_between_ge buf a b : b <= a -> leaves_between buf a b = 0.
Proof. intros H. unfold leaves_between. replace (b - a) with 0 by lia. reflexivity. Qed.

Lemma skipn_cons {A} (l : list A) : forall n x, nth_error l n = Some x -> skipn n l = x :: skipn (S n) l.
Proof. induction l as [|y l IH]; intros [|n] x H; try discriminate H; [injection H as ->; reflexivity|]. apply IH. exact H. Qed.

Lemma leaves_between_step buf a b e : a < b -> nth_error buf a = Some e ->
  leaves_between buf a b = (if is_leaf e then 1 else 0) + leaves_between buf (S a) b.
Proof.
  intros H He. unfold leaves_between. rewrite (skipn_cons _ _ _ He).
  replace (b - a) with (S (b - S a)) by lia. cbn [firstn filter]. destruct (is_leaf e); reflexivity.
Qed.

Lemma leaves_between_add buf a b c : a <= b -> b <= c ->
  leaves_between buf a c = leaves_between buf a b + leaves_between buf b c.
Proof.
  intros H1 H2. unfold leaves_between.
  replace (c - a) with ((b - a) + (c - b)) by lia.
  rewrite <- (firstn_skipn (b - a) (firstn (b - a + (c - b)) (skipn a buf))) at 1.
  rewrite firstn_firstn, Nat.min_l by lia. rewrite skipn_firstn_comm.
  replace (b - a + (c - b) - (b - a)) with (c - b) by lia.
  rewrite skipn_skipn. replace (b - a + a) with b by lia. rewrite filter_app, app_length. reflexivity.
Qed.

(** ** Groups are nested *)
Definition nested (buf : list entry) (lo hi : nat) : Prop :=
  forall k d off, lo <= k -> k < hi -> nth_error buf k = Some (EGroup d off) ->
  0 < off /\ k + off < hi /\ nth_error buf (k + off) = Some EEnd /\
  forall k' d' off', k < k' -> k' < k + off -> nth_error buf k' = Some (EGroup d' off') -> k' + off' < k + off.

Lemma nested_weaken buf lo lo' hi : nested buf lo hi -> lo <= lo' -> nested buf lo' hi.
Proof. intros H Hl k d off H1 H2. apply H; lia. Qed.

Lemma nested_inside buf lo hi k d off : nested buf lo hi -> lo <= k -> k < hi ->
  nth_error buf k = Some (EGroup d off) -> nested buf (S k) (k + off).
Proof.
  intros H Hl Hh He k' d' off' H1 H2 He'.
  destruct (H k d off Hl Hh He) as (Hp & Hlt & Hend & Hn).
  destruct (H k' d' off' ltac:(lia) ltac:(lia) He') as (Hp' & _ & Hend' & Hn').
  pose proof (Hn k' d' off' ltac:(lia) ltac:(lia) He'). auto.
Qed.

Lemma nested_app b1 b2 : nested b1 0 (length b1) -> nested b2 0 (length b2) -> nested (b1 ++ b2) 0 (length (b1 ++ b2)).
Proof.
  intros H1 H2 k d off _ Hk He. rewrite app_length in Hk.
  destruct (Nat.lt_ge_cases k (length b1)) as [Hlt|Hge].
  - rewrite nth_error_app1 in He by lia.
    destruct (H1 k d off ltac:(lia) Hlt He) as (Hp & Hlt' & Hend & Hn).
    rewrite app_length. repeat split; [lia|lia|rewrite nth_error_app1 by lia; auto|].
    intros k' d' off' Ha Hb. rewrite nth_error_app1 by lia. apply Hn; lia.
  - rewrite nth_error_app2 in He by lia.
    destruct (H2 (k - length b1) d off ltac:(lia) ltac:(lia) He) as (Hp & Hlt' & Hend & Hn).
    rewrite app_length. repeat split; [lia|lia|rewrite nth_error_app2 by lia; replace (k + off - length b1) with (k - length b1 + off) by lia; auto|].
    intros k' d' off' Ha Hb. rewrite nth_error_app2 by lia. intros He'.
    specialize (Hn (k' - length b1) d' off' ltac:(lia) ltac:(lia) He'). lia.
Qed.

Lemma nested_group d b : nested b 0 (length b) ->
  nested (EGroup d (S (length b)) :: b ++ [EEnd]) 0 (length (EGroup d (S (length b)) :: b ++ [EEnd])).
Proof.
  intros H k d0 off _ Hk He. cbn [length] in *. rewrite app_length in *. cbn [length] in *.
  destruct k as [|k].
  - injection He as <- <-. split; [lia|]. split; [lia|]. split.
    + cbn [nth_error Nat.add]. rewrite nth_error_app2 by lia. rewrite Nat.sub_diag. reflexivity.
    + intros [|k'] d' off' Ha Hb He'; [lia|]. cbn [nth_error] in He'.
      rewrite nth_error_app1 in He' by lia.
      destruct (H k' d' off' ltac:(lia) ltac:(lia) He') as (_ & Hlt & _). lia.
  - cbn [nth_error] in He.
    assert (Hk' : k < length b).
    { destruct (Nat.lt_ge_cases k (length b)) as [|Hge]; [auto|].
      replace k with (length b + (k - length b)) in He by lia. rewrite nth_error_app2 in He by lia.
      destruct (length b + (k - length b) - length b) as [|m]; [discriminate He|]. cbn in He. destruct m; discriminate He. }
    rewrite nth_error_app1 in He by lia. destruct (H k d0 off ltac:(lia) Hk' He) as (Hp & Hlt & Hend & Hn).
    repeat split; [lia|lia|cbn [nth_error Nat.add]; rewrite nth_error_app1 by lia; auto|].
    intros [|k'] d' off' Ha Hb He'; [lia|]. cbn [nth_error] in He'. rewrite nth_error_app1 in He' by lia.
    specialize (Hn k' d' off' ltac:(lia) ltac:(lia) He'). lia.
Qed.

Lemma nested_flatten t : nested (flatten t) 0 (length (flatten t)).
Proof.
  assert (Leaf : forall x, nested [ELeaf x] 0 (length [ELeaf x])).
  { intros x k d off _ Hk He. cbn in Hk. destruct k; [discriminate He|lia]. }
  induction t as [x|c j|l|d ts IH] using tt_ind'; try apply Leaf.
  cbn [flatten]. apply nested_group.
  induction IH as [|t ts Ht _ IHts]; [intros k ? ? ? Hk; cbn in Hk; lia|].
  cbn [flat_map]. apply nested_app; assumption.
Qed.
Lemma nested_stream ts : nested (flat_map flatten ts) 0 (length (flat_map flatten ts)).
Proof.
  induction ts as [|t ts IH]; [intros k ? ? ? Hk; cbn in Hk; lia|].
  cbn [flat_map]. apply nested_app; [apply nested_flatten|assumption].
Qed.
Lemma nested_buffer ts : nested (buffer ts) 0 (length (buffer ts) - 1).
Proof.
  unfold buffer. rewrite app_length. cbn [length]. replace (length (flat_map flatten ts) + 1 - 1) with (length (flat_map flatten ts)) by lia.
  intros k d off _ Hk He. rewrite nth_error_app1 in He by lia.
  destruct (nested_stream ts k d off ltac:(lia) Hk He) as (H1 & H2 & H3 & H4).
  repeat split; auto; [rewrite nth_error_app1 by lia; auto|].
  intros k' d' off' Ha Hb. rewrite nth_error_app1 by lia. apply H4; lia.
Qed.

(** ** Skipping end markers *)
Lemma skip_ends_spec buf sc : nth_error buf sc = Some EEnd -> forall p, p <= sc ->
  let q := skip_ends (skipn p buf) p sc in
  p <= q /\ q <= sc /\ (q = sc \/ exists e, nth_error buf q = Some e /\ e <> EEnd) /\
  (forall k, p <= k -> k < q -> nth_error buf k = Some EEnd).
Proof.
  intros Hs p Hp. remember (sc - p) as n eqn:Hn. revert p Hp Hn.
  induction n as [|n IH]; intros p Hp Hn.
  - assert (p = sc) by lia. subst p. rewrite (skipn_cons _ _ _ Hs). cbn [skip_ends]. rewrite Nat.eqb_refl.
    repeat split; auto. intros; lia.
  - destruct (nth_error buf p) as [e|] eqn:E.
    + rewrite (skipn_cons _ _ _ E). destruct e as [d off|t|].
      * cbn [skip_ends]. repeat split; auto; [right; eexists; split; [exact E|discriminate]|intros; lia].
      * cbn [skip_ends]. repeat split; auto; [right; eexists; split; [exact E|discriminate]|intros; lia].
      * cbn [skip_ends]. destruct (Nat.eqb p sc) eqn:Ep; [apply Nat.eqb_eq in Ep; lia|].
        destruct (IH (S p) ltac:(lia) ltac:(lia)) as (H1 & H2 & H3 & H4).
        repeat split; [lia|auto|auto|]. intros k Ha Hb. destruct (Nat.eq_dec k p); [subst; auto|apply H4; lia].
    + apply nth_error_None in E. assert (sc < length buf) by (apply nth_error_Some; congruence). lia.
Qed.

Definition valid (buf : list entry) (c : cursor) : Prop :=
  ptr c <= scope c /\ nth_error buf (scope c) = Some EEnd /\ nested buf (ptr c) (scope c) /\
  (ptr c = scope c \/ exists e, nth_error buf (ptr c) = Some e /\ e <> EEnd).

Lemma create_valid buf p sc : p <= sc -> nth_error buf sc = Some EEnd -> nested buf p sc -> valid buf (create buf p sc).
Proof.
  intros Hp Hs Hn. destruct (skip_ends_spec buf sc Hs p Hp) as (H1 & H2 & H3 & _).
  unfold valid, create; cbn [ptr scope]. split; [exact H2|]. split; [exact Hs|]. split; [exact (nested_weaken buf p _ sc Hn H1)|exact H3].
Qed.

Lemma group_bounds buf c d off : valid buf c -> nth_error buf (ptr c) = Some (EGroup d off) ->
  ptr c < scope c /\ 0 < off /\ ptr c + off < scope c /\ nth_error buf (ptr c + off) = Some EEnd /\ nested buf (S (ptr c)) (ptr c + off).
Proof.
  intros (H1 & H2 & H3 & H4) He.
  assert (Hlt : ptr c < scope c).
  { destruct (Nat.eq_dec (ptr c) (scope c)) as [E|]; [|lia]. rewrite E in He. congruence. }
  destruct (H3 (ptr c) d off ltac:(lia) Hlt He) as (Ha & Hb & Hc & _).
  split; [exact Hlt|]. split; [exact Ha|]. split; [exact Hb|]. split; [exact Hc|].
  eapply nested_inside; eauto.
Qed.

Lemma step_valid buf c c' : valid buf c -> token_tree buf c = Some c' -> valid buf c'.
Proof.
  intros Hv H. unfold token_tree in H. destruct (nth_error buf (ptr c)) as [[d off|t|]|] eqn:E; try discriminate H; injection H as <-.
  - destruct (group_bounds buf c d off Hv E) as (H1 & H2 & H3 & H4 & H5). destruct Hv as (Hv1 & Hv2 & Hv3 & Hv4).
    apply create_valid; [lia|exact Hv2|]. eapply nested_weaken; [exact Hv3|lia].
  - destruct Hv as (Hv1 & Hv2 & Hv3 & Hv4).
    assert (ptr c < scope c) by (destruct (Nat.eq_dec (ptr c) (scope c)) as [E'|]; [rewrite E' in E; congruence|lia]).
    apply create_valid; [lia|exact Hv2|]. eapply nested_weaken; [exact Hv3|lia].
Qed.
Lemma enter_valid buf c i a : valid buf c -> any_group buf c = Some (i, a) -> valid buf i /\ valid buf a.
Proof.
  intros Hv H. unfold any_group in H. destruct (nth_error buf (ptr c)) as [[d off|t|]|] eqn:E; try discriminate H; injection H as <- <-.
  destruct (group_bounds buf c d off Hv E) as (H1 & H2 & H3 & H4 & H5). destruct Hv as (Hv1 & Hv2 & Hv3 & Hv4).
  split; apply create_valid; [lia|exact H4|exact H5|lia|exact Hv2|]. eapply nested_weaken; [exact Hv3|lia].
Qed.
Lemma position_valid ts c : position (buffer ts) c -> valid (buffer ts) c.
Proof.
  induction 1 as [|c c' _ IH H|c i a _ IH H|c off _ IH H].
  - apply create_valid; [lia| |apply nested_buffer].
    (* the last entry is an end marker *)
    unfold buffer. rewrite app_length. cbn [length]. rewrite nth_error_app2 by lia.
    replace (length (flat_map flatten ts) + 1 - 1 - length (flat_map flatten ts)) with 0 by lia. reflexivity.
  - exact (step_valid _ _ _ IH H).
  - exact (proj1 (enter_valid _ _ _ _ IH H)).
  - destruct (group_bounds _ c _ off IH H) as (H1 & H2 & H3 & H4 & H5). destruct IH as (Hv1 & Hv2 & Hv3 & Hv4).
    apply create_valid; [lia|exact Hv2|]. eapply nested_weaken; [exact Hv3|lia].
Qed.

(** ** The loop counts leaves *)
Lemma ends_no_leaves buf a b : (forall k, a <= k -> k < b -> nth_error buf k = Some EEnd) -> leaves_between buf a b = 0.
Proof.
  intros H. remember (b - a) as n eqn:Hn. revert a H Hn. induction n as [|n IH]; intros a H Hn; [apply leaves_between_ge; lia|].
  erewrite leaves_between_step; [|lia|apply H; lia]. cbn [is_leaf Nat.add]. apply IH; [intros; apply H; lia|lia].
Qed.

Lemma inner_counts buf end_ : forall fuel start, valid buf start -> ptr end_ - ptr start < fuel ->
  inner fuel buf start end_ = Ok (leaves_between buf (ptr start) (Nat.min (ptr end_) (scope start))).
Proof.
  intros fuel. revert end_. induction fuel as [|fuel IH]; intros end_ start Hv Hf; [lia|]. cbn [inner].
  destruct (Nat.ltb (ptr start) (ptr end_)) eqn:El.
  2:{ apply Nat.ltb_ge in El. rewrite leaves_between_ge by lia. reflexivity. }
  apply Nat.ltb_lt in El. unfold any_group, token_tree.
  pose proof Hv as (Hv1 & Hv2 & Hv3 & Hv4).
  destruct (nth_error buf (ptr start)) as [[d off|t|]|] eqn:E.
  - destruct (group_bounds buf start d off Hv E) as (H1 & H2 & H3 & H4 & H5).
    set (g := ptr start + off) in *.
    destruct (skip_ends_spec buf g H4 (S (ptr start)) ltac:(lia)) as (A1 & A2 & A3 & A4).
    destruct (skip_ends_spec buf (scope start) Hv2 g ltac:(lia)) as (B1 & B2 & B3 & B4).
    assert (Vi : valid buf (create buf (S (ptr start)) g)) by (apply create_valid; [lia|exact H4|exact H5]).
    assert (Va : valid buf (create buf g (scope start))) by (apply create_valid; [lia|exact Hv2|eapply nested_weaken; [exact Hv3|lia]]).
    set (pi := skip_ends (skipn (S (ptr start)) buf) (S (ptr start)) g) in *.
    set (pa := skip_ends (skipn g buf) g (scope start)) in *.
    assert (Zi : leaves_between buf (S (ptr start)) pi = 0) by (apply ends_no_leaves; auto).
    assert (Za : forall q, g <= q -> q <= pa -> leaves_between buf g q = 0).
    { intros q Hq1 Hq2. apply ends_no_leaves. intros k Hk1 Hk2. apply B4; lia. }
    (* leaves from here to a point x after the group's start *)
    assert (From : forall x, pi <= x -> leaves_between buf (ptr start) x = leaves_between buf pi x).
    { intros x Hx. rewrite (leaves_between_step buf (ptr start) x _ ltac:(lia) E). cbn [is_leaf Nat.add].
      rewrite (leaves_between_add buf (S (ptr start)) pi x) by lia. rewrite Zi. reflexivity. }
    change (ptr (create buf g (scope start))) with pa.
    destruct (Nat.ltb (ptr end_) pa) eqn:Ee.
    + apply Nat.ltb_lt in Ee. rewrite IH; [|exact Vi|cbn [create ptr]; fold pi; lia].
      cbn [bind create ptr scope]. fold pi. f_equal.
      destruct (Nat.lt_ge_cases (ptr end_) pi) as [Hp|Hp].
      * rewrite leaves_between_ge by lia. symmetry.
        rewrite (leaves_between_step buf (ptr start) (Nat.min (ptr end_) (scope start)) _ ltac:(lia) E). cbn [is_leaf Nat.add].
        apply ends_no_leaves. intros k Ha Hb. apply A4; lia.
      * rewrite <- From by lia. destruct (Nat.lt_ge_cases (ptr end_) g) as [Hg|Hg].
        { replace (Nat.min (ptr end_) g) with (ptr end_) by lia. f_equal. lia. }
        { replace (Nat.min (ptr end_) g) with g by lia. replace (Nat.min (ptr end_) (scope start)) with (ptr end_) by lia.
          rewrite (leaves_between_add buf (ptr start) g (ptr end_)) by lia. rewrite (Za (ptr end_)) by lia. lia. }
    + apply Nat.ltb_ge in Ee.
      rewrite IH; [|exact Vi|cbn [create ptr]; fold pi pa; lia]. cbn [bind].
      rewrite IH; [|exact Va|cbn [create ptr]; fold pa; lia]. cbn [bind create ptr scope]. fold pi pa. f_equal.
      replace (Nat.min pa g) with g by lia. rewrite <- From by lia.
      rewrite (leaves_between_add buf (ptr start) g (Nat.min (ptr end_) (scope start))) by lia.
      rewrite (leaves_between_add buf g pa (Nat.min (ptr end_) (scope start))) by lia.
      rewrite (Za pa) by lia. reflexivity.
  - assert (Hlt : ptr start < scope start) by (destruct (Nat.eq_dec (ptr start) (scope start)) as [E'|]; [rewrite E' in E; congruence|lia]).
    destruct (skip_ends_spec buf (scope start) Hv2 (S (ptr start)) ltac:(lia)) as (B1 & B2 & B3 & B4).
    assert (Vn : valid buf (create buf (S (ptr start)) (scope start))) by (apply create_valid; [lia|exact Hv2|eapply nested_weaken; [exact Hv3|lia]]).
    set (pn := skip_ends (skipn (S (ptr start)) buf) (S (ptr start)) (scope start)) in *.
    rewrite IH; [|exact Vn|cbn [create ptr]; fold pn; lia]. cbn [bind create ptr scope]. fold pn. f_equal.
    rewrite (leaves_between_step buf (ptr start) (Nat.min (ptr end_) (scope start)) _ ltac:(lia) E). cbn [is_leaf]. f_equal.
    destruct (Nat.lt_ge_cases (ptr end_) pn) as [Hp|Hp].
    + rewrite leaves_between_ge by lia. symmetry. apply ends_no_leaves. intros k Ha Hb. apply B4; lia.
    + rewrite (leaves_between_add buf (S (ptr start)) pn) by lia.
      rewrite (ends_no_leaves buf (S (ptr start)) pn); auto.
  - destruct Hv4 as [H4|(e & He & Hne)]; [|congruence]. rewrite leaves_between_ge by lia. reflexivity.
  - destruct Hv4 as [H4|(e & He & Hne)]; congruence.
Qed.

Lemma distance_counts buf a b : valid buf a -> valid buf b ->
  token_distance buf a b =
  Ok (if Nat.ltb (ptr b) (ptr a) then leaves_between buf (ptr b) (Nat.min (ptr a) (scope b))
      else leaves_between buf (ptr a) (Nat.min (ptr b) (scope a))).
Proof.
  intros Ha Hb. unfold token_distance. destruct (Nat.ltb (ptr b) (ptr a)); apply inner_counts; auto; lia.
Qed.

Lemma distance_same_scope ts a b : position (buffer ts) a -> position (buffer ts) b -> scope a = scope b ->
  token_distance (buffer ts) a b = Ok (leaves_between (buffer ts) (Nat.min (ptr a) (ptr b)) (Nat.max (ptr a) (ptr b))).
Proof.
  intros Ha Hb Hs. apply position_valid in Ha, Hb. rewrite distance_counts by auto. f_equal.
  destruct Ha as (Ha & _), Hb as (Hb & _).
  destruct (Nat.ltb (ptr b) (ptr a)) eqn:E; [apply Nat.ltb_lt in E|apply Nat.ltb_ge in E]; f_equal; lia.
Qed.

Lemma distance_general ts a b : position (buffer ts) a -> position (buffer ts) b -> ptr a <= ptr b ->
  token_distance (buffer ts) a b = Ok (leaves_between (buffer ts) (ptr a) (Nat.min (ptr b) (scope a))).
Proof.
  intros Ha Hb Hs. apply position_valid in Ha, Hb. rewrite distance_counts by auto.
  destruct (Nat.ltb (ptr b) (ptr a)) eqn:E; [apply Nat.ltb_lt in E; lia|reflexivity].
Qed.

Lemma distance_sym buf a b : ptr a <> ptr b \/ a = b -> token_distance buf a b = token_distance buf b a.
Proof.
  intros H. unfold token_distance. destruct (Nat.ltb (ptr b) (ptr a)) eqn:E1; destruct (Nat.ltb (ptr a) (ptr b)) eqn:E2; auto.
  - apply Nat.ltb_lt in E1, E2. lia.
  - apply Nat.ltb_ge in E1, E2. destruct H as [H| ->]; [lia|reflexivity].
Qed.
Lemma distance_refl_ptr ts a b : position (buffer ts) a -> position (buffer ts) b -> ptr a = ptr b -> token_distance (buffer ts) a b = Ok 0.
Proof.
  intros Ha Hb E. rewrite distance_general by (auto; lia). rewrite leaves_between_ge by lia. reflexivity.
Qed.
Lemma distance_symmetric ts a b : position (buffer ts) a -> position (buffer ts) b ->
  token_distance (buffer ts) a b = token_distance (buffer ts) b a.
Proof.
  intros Ha Hb. destruct (Nat.eq_dec (ptr a) (ptr b)) as [E|E]; [|apply distance_sym; auto].
  rewrite !distance_refl_ptr by auto. reflexivity.
Qed.

Lemma distance_additive ts a b c : position (buffer ts) a -> position (buffer ts) b -> position (buffer ts) c ->
  scope a = scope b -> scope b = scope c -> ptr a <= ptr b -> ptr b <= ptr c ->
  exists x y, token_distance (buffer ts) a b = Ok x /\ token_distance (buffer ts) b c = Ok y /\
    token_distance (buffer ts) a c = Ok (x + y).
Proof.
  intros Ha Hb Hc E1 E2 L1 L2. rewrite !distance_same_scope by congruence.
  eexists. eexists. split; [reflexivity|]. split; [reflexivity|]. f_equal.
  rewrite !Nat.min_l, !Nat.max_r by lia. apply leaves_between_add; auto.
Qed.

Lemma distance_zero ts a b : position (buffer ts) a -> position (buffer ts) b -> scope a = scope b ->
  (token_distance (buffer ts) a b = Ok 0 <->
   forall k t, Nat.min (ptr a) (ptr b) <= k -> k < Nat.max (ptr a) (ptr b) -> nth_error (buffer ts) k <> Some (ELeaf t)).
Proof.
  intros Ha Hb Hs. rewrite distance_same_scope by auto.
  generalize (Nat.min (ptr a) (ptr b)) as lo, (Nat.max (ptr a) (ptr b)) as hi. generalize (buffer ts). clear.
  intros buf lo hi. split.
  - intros H k t Hk1 Hk2 He. injection H as H.
    rewrite (leaves_between_add buf lo k hi) in H by lia. rewrite (leaves_between_step buf k hi _ Hk2 He) in H. cbn in H. lia.
  - intros H. f_equal. remember (hi - lo) as n eqn:Hn. revert lo H Hn. induction n as [|n IH]; intros lo H Hn; [apply leaves_between_ge; lia|].
    destruct (nth_error buf lo) as [e|] eqn:E.
    + rewrite (leaves_between_step buf lo hi e) by (auto; lia).
      destruct e as [d o|t|]; cbn [is_leaf]; [|exfalso; apply (H lo t); auto; lia|]; (rewrite IH; [reflexivity| |lia]);
        intros k t Hk1 Hk2; apply H; lia.
    + apply nth_error_None in E. unfold leaves_between. rewrite skipn_all2 by lia. rewrite firstn_nil. reflexivity.
Qed.

(** ** In terms of token streams *)
Lemma leaves_flatten t : length (filter is_leaf (flatten t)) = length (leaves [t]).
Proof.
  induction t as [x|c j|l|d ts IH] using tt_ind'; try reflexivity.
  cbn [flatten filter is_leaf]. rewrite filter_app, app_length. cbn [filter is_leaf length].
  unfold leaves. cbn. rewrite app_nil_r, Nat.add_0_r.
  induction IH as [|t ts Ht _ IHts]; [reflexivity|].
  cbn [flat_map]. rewrite filter_app, !app_length, IHts. f_equal.
  unfold leaves in Ht. cbn in Ht. rewrite app_nil_r in Ht. exact Ht.
Qed.
Lemma leaves_app a b : leaves (a ++ b) = leaves a ++ leaves b.
Proof. unfold leaves. apply flat_map_app. Qed.
Lemma leaves_stream ts : length (filter is_leaf (flat_map flatten ts)) = length (leaves ts).
Proof.
  induction ts as [|t ts IH]; [reflexivity|]. cbn [flat_map]. rewrite filter_app, app_length, IH, leaves_flatten.
  change (t :: ts) with ([t] ++ ts). rewrite leaves_app, app_length. reflexivity.
Qed.

(** ** Cursors as readers of token streams *)
Lemma flatten_cons t : exists e r, flatten t = e :: r /\ e <> EEnd.
Proof. destruct t; cbn [flatten]; eexists; eexists; (split; [reflexivity|discriminate]). Qed.

Lemma create_reads buf p ts rest : skipn p buf = flat_map flatten ts ++ EEnd :: rest ->
  reads buf (create buf p (p + length (flat_map flatten ts))) ts /\
  ptr (create buf p (p + length (flat_map flatten ts))) = p.
Proof.
  intros H.
  assert (E : ptr (create buf p (p + length (flat_map flatten ts))) = p).
  { unfold create; cbn [ptr]. rewrite H. destruct ts as [|t ts].
    - cbn [flat_map app length skip_ends]. rewrite Nat.add_0_r, Nat.eqb_refl. reflexivity.
    - cbn [flat_map]. destruct (flatten_cons t) as (e & r & -> & Hne). cbn [app skip_ends]. destruct e; congruence. }
  split; [|exact E]. split; [rewrite E; reflexivity|]. rewrite E. exists rest. exact H.
Qed.

Lemma skip_over {A} (buf : list A) p a b : skipn p buf = a ++ b -> skipn (p + length a) buf = b.
Proof.
  intros H. rewrite Nat.add_comm, <- skipn_skipn, H. rewrite skipn_app, skipn_all, Nat.sub_diag. reflexivity.
Qed.
Lemma skip_nth {A} (buf : list A) p a b : skipn p buf = a :: b -> nth_error buf p = Some a.
Proof.
  revert buf; induction p as [|p IH]; intros buf H; [cbn in H; subst; reflexivity|].
  destruct buf as [|x buf]; [rewrite skipn_nil in H; discriminate H|]. exact (IH _ H).
Qed.

Lemma create_after_group buf p sc rest : skipn p buf = EEnd :: rest -> p <> sc -> create buf p sc = create buf (S p) sc.
Proof.
  intros H Hne. unfold create. rewrite H. cbn [skip_ends]. destruct (Nat.eqb p sc) eqn:E; [apply Nat.eqb_eq in E; congruence|].
  replace (S p) with (p + length [@EEnd]) by (cbn [length]; lia). rewrite (skip_over buf p [EEnd] rest H). reflexivity.
Qed.

Lemma reads_group buf c d ts r : reads buf c (TGroup d ts :: r) ->
  exists i a, any_group buf c = Some (i, a) /\ token_tree buf c = Some a /\ reads buf i ts /\ reads buf a r /\ scope a = scope c.
Proof.
  intros (Hs & rest & H). cbn [flat_map flatten] in *.
  set (b := flat_map flatten ts) in *. cbn [app] in H.
  pose proof (skip_nth _ _ _ _ H) as Hn. unfold any_group, token_tree. rewrite Hn.
  rewrite <- !app_assoc in H. cbn [app] in H.
  assert (H1 : skipn (S (ptr c)) buf = b ++ EEnd :: flat_map flatten r ++ EEnd :: rest).
  { replace (S (ptr c)) with (ptr c + length [EGroup d (S (length b))]) by (cbn [length]; lia).
    apply skip_over. exact H. }
  assert (H2 : skipn (ptr c + S (length b)) buf = EEnd :: flat_map flatten r ++ EEnd :: rest).
  { replace (ptr c + S (length b)) with (S (ptr c) + length b) by lia. apply skip_over. exact H1. }
  assert (H3 : skipn (S (ptr c + S (length b))) buf = flat_map flatten r ++ EEnd :: rest).
  { replace (S (ptr c + S (length b))) with (ptr c + S (length b) + length [@EEnd]) by (cbn [length]; lia). apply skip_over. exact H2. }
  cbn [length app] in Hs. rewrite !app_length in Hs. cbn [length] in Hs.
  eexists. eexists. split; [reflexivity|]. split; [reflexivity|]. split; [|split; [|reflexivity]].
  - replace (ptr c + S (length b)) with (S (ptr c) + length b) by lia.
    exact (proj1 (create_reads buf (S (ptr c)) ts _ H1)).
  - rewrite (create_after_group buf _ _ _ H2) by lia.
    replace (scope c) with (S (ptr c + S (length b)) + length (flat_map flatten r)) by lia.
    exact (proj1 (create_reads buf _ r _ H3)).
Qed.

Lemma reads_step buf c t r : reads buf c (t :: r) ->
  exists c', token_tree buf c = Some c' /\ reads buf c' r /\ scope c' = scope c.
Proof.
  intros Hr. destruct t as [x|ch j|l|d ts].
  4:{ destruct (reads_group buf c d ts r Hr) as (i & a & _ & H1 & _ & H2 & H3). exists a. auto. }
  all: destruct Hr as (Hs & rest & H); cbn [flat_map flatten app] in H; pose proof (skip_nth _ _ _ _ H) as Hn;
    unfold token_tree; rewrite Hn; eexists; (split; [reflexivity|]); (split; [|reflexivity]);
    cbn [flat_map flatten app length] in Hs;
    replace (scope c) with (S (ptr c) + length (flat_map flatten r)) by lia;
    (refine (proj1 (create_reads buf (S (ptr c)) r rest _)));
    replace (S (ptr c)) with (ptr c + 1) by lia;
    exact (skip_over buf (ptr c) [_] _ H).
Qed.

Lemma reads_begin ts : reads (buffer ts) (begin (buffer ts)) ts.
Proof.
  unfold begin. replace (length (buffer ts) - 1) with (0 + length (flat_map flatten ts)).
  - exact (proj1 (create_reads (buffer ts) 0 ts [] eq_refl)).
  - unfold buffer. rewrite app_length. cbn [length]. lia.
Qed.

Lemma reads_leaves buf c a b : reads buf c (a ++ b) ->
  leaves_between buf (ptr c) (ptr c + length (flat_map flatten a)) = length (leaves a).
Proof.
  intros (_ & rest & H). unfold leaves_between.
  replace (ptr c + length (flat_map flatten a) - ptr c) with (length (flat_map flatten a)) by lia.
  rewrite H, flat_map_app, <- app_assoc, firstn_app, Nat.sub_diag, firstn_all. cbn [firstn]. rewrite app_nil_r.
  apply leaves_stream.
Qed.

Lemma reads_ptr buf c c' a b : reads buf c (a ++ b) -> reads buf c' b -> scope c = scope c' ->
  ptr c' = ptr c + length (flat_map flatten a).
Proof. intros (H1 & _) (H2 & _) E. rewrite flat_map_app, app_length in H1. lia. Qed.

Lemma advance_reads buf k : forall c ts, reads buf c ts -> k <= length ts ->
  exists c', advance k buf c = Some c' /\ reads buf c' (skipn k ts) /\ scope c' = scope c.
Proof.
  induction k as [|k IH]; intros c ts H Hk; [exists c; auto|].
  destruct ts as [|t ts]; [cbn in Hk; lia|]. destruct (reads_step buf c t ts H) as (c1 & E1 & R1 & S1).
  destruct (IH c1 ts R1) as (c2 & E2 & R2 & S2); [cbn in Hk; lia|].
  exists c2. cbn [advance]. rewrite E1. repeat split; auto; [apply R2|destruct R2 as (_ & R2); exact R2|congruence].
Qed.

Lemma advance_position buf k : forall c c', position buf c -> advance k buf c = Some c' -> position buf c'.
Proof.
  induction k as [|k IH]; intros c c' Hp H; [injection H as <-; auto|].
  cbn [advance] in H. destruct (token_tree buf c) as [c1|] eqn:E; [|discriminate H].
  eapply IH; [|exact H]. eapply step; eauto.
Qed.

Lemma distance_of_advance ts c l k : position (buffer ts) c -> reads (buffer ts) c l -> k <= length l ->
  exists c', advance k (buffer ts) c = Some c' /\ reads (buffer ts) c' (skipn k l) /\
    token_distance (buffer ts) c c' = Ok (length (leaves (firstn k l))).
Proof.
  intros Hp Hr Hk. destruct (advance_reads _ k c l Hr Hk) as (c' & E & R & S).
  exists c'. split; [exact E|]. split; [exact R|].
  rewrite distance_same_scope; [|exact Hp|eapply advance_position; eauto|congruence].
  rewrite <- (firstn_skipn k l) in Hr. pose proof (reads_ptr _ _ _ _ _ Hr R (eq_sym S)) as Ep.
  rewrite Nat.min_l, Nat.max_r by lia. rewrite Ep. f_equal. eapply reads_leaves; eauto.
Qed.

Lemma subgroup_reads ts c d l r : position (buffer ts) c -> reads (buffer ts) c (TGroup d l :: r) ->
  exists i a, any_group (buffer ts) c = Some (i, a) /\ position (buffer ts) i /\ reads (buffer ts) i l.
Proof.
  intros Hp Hr. destruct (reads_group _ _ _ _ _ Hr) as (i & a & E & _ & R & _).
  exists i, a. repeat split; auto; [eapply enter; eauto|apply R|destruct R as (_ & R); exact R].
Qed.

(** ** Ids *)
Lemma requests_nth threads : forall c i t, (c < 2 ^ 64)%N -> nth_error threads i = Some t ->
  nth_error (requests c threads) i = Some (t, ((c + N.of_nat i) mod 2 ^ 64)%N).
Proof.
  induction threads as [|t' r IH]; intros c [|i] t Hc H; try discriminate H.
  - injection H as ->. cbn [requests next_unique_id nth_error]. rewrite N.add_0_r, N.mod_small by exact Hc. reflexivity.
  - cbn [requests next_unique_id nth_error] in *. rewrite (IH _ _ _ (N.mod_lt (c + 1) (2 ^ 64) ltac:(discriminate)) H).
    rewrite N.add_mod_idemp_l by discriminate. do 3 f_equal. lia.
Qed.
Lemma requests_length threads : forall c, length (requests c threads) = length threads.
Proof. induction threads as [|t r IH]; intros c; [reflexivity|]. cbn [requests next_unique_id length]. rewrite IH. reflexivity. Qed.
Lemma requests_threads threads : forall c, map fst (requests c threads) = threads.
Proof. induction threads as [|t r IH]; intros c; [reflexivity|]. cbn [requests next_unique_id map fst]. rewrite IH. reflexivity. Qed.
Lemma requests_nth_inv threads c i t id : (c < 2 ^ 64)%N -> nth_error (requests c threads) i = Some (t, id) ->
  id = ((c + N.of_nat i) mod 2 ^ 64)%N.
Proof.
  intros Hc H. destruct (nth_error threads i) as [t'|] eqn:E.
  - rewrite (requests_nth threads c i t' Hc E) in H. congruence.
  - apply nth_error_None in E. rewrite <- (requests_length threads c) in E. apply nth_error_None in E. congruence.
Qed.
Lemma ids_unique c threads i j t u id : (c < 2 ^ 64)%N -> (N.of_nat (length threads) <= 2 ^ 64)%N ->
  nth_error (requests c threads) i = Some (t, id) -> nth_error (requests c threads) j = Some (u, id) -> i = j.
Proof.
  intros Hc Hl Hi Hj.
  assert (Li : i < length threads) by (rewrite <- (requests_length threads c); apply nth_error_Some; congruence).
  assert (Lj : j < length threads) by (rewrite <- (requests_length threads c); apply nth_error_Some; congruence).
  pose proof (requests_nth_inv _ _ _ _ _ Hc Hi) as Ei. pose proof (requests_nth_inv _ _ _ _ _ Hc Hj) as Ej.
  rewrite Ei in Ej. clear Ei Hi Hj.
  set (m := (2 ^ 64)%N) in *.
  pose proof (N.div_mod (c + N.of_nat i) m ltac:(discriminate)) as Di.
  pose proof (N.div_mod (c + N.of_nat j) m ltac:(discriminate)) as Dj.
  rewrite Ej in Di.
  assert (N.of_nat i = N.of_nat j); [|lia].
  destruct (N.eq_dec ((c + N.of_nat i) / m) ((c + N.of_nat j) / m)) as [E|E]; [rewrite E in Di; lia|].
  assert (Hm : (m <> 0)%N) by discriminate. clearbody m. nia.
Qed.
Lemma ids_repeat c threads i t u id id' : (c < 2 ^ 64)%N ->
  nth_error (requests c threads) i = Some (t, id) ->
  nth_error (requests c threads) (i + N.to_nat (2 ^ 64)) = Some (u, id') -> id = id'.
Proof.
  intros Hc Hi Hj. rewrite (requests_nth_inv _ _ _ _ _ Hc Hi), (requests_nth_inv _ _ _ _ _ Hc Hj).
  rewrite Nat2N.inj_add, N2Nat.id. symmetry.
  replace (c + (N.of_nat i + 2 ^ 64))%N with (c + N.of_nat i + 1 * 2 ^ 64)%N by lia.
  apply N.mod_add. discriminate.
Qed.
