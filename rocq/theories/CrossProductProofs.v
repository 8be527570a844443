(** Proofs about the cross-product iterator. *)
From Verif Require Import Base CrossProduct SpecProduct.

Section P.
Context {A : Type}.
Implicit Types ss : list (list A).

Fixpoint cnt ss : nat := match ss with [] => 1 | x :: r => length x * cnt r end.

Fixpoint val (is : list nat) ss : nat :=
  match is, ss with
  | i :: is', _ :: ss' => i * cnt ss' + val is' ss'
  | _, _ => 0
  end.

Definition inr_ (is : list nat) ss := Forall2 (fun i (sr : list A) => i < length sr) is ss.

Lemma Forall2_length' {B C} (R : B -> C -> Prop) a b : Forall2 R a b -> length a = length b.
Proof. induction 1; cbn; congruence. Qed.

Lemma length_flat_map_const {B C} (f : B -> list C) n (l : list B) :
  (forall x, length (f x) = n) -> length (flat_map f l) = length l * n.
Proof.
  intros H; induction l as [|x l IH]; cbn [flat_map length]; [reflexivity|].
  rewrite app_length, H, IH; lia.
Qed.

Lemma length_nested ss : length (nested_loops ss) = cnt ss.
Proof.
  induction ss as [|x r IH]; cbn [nested_loops cnt length]; [reflexivity|].
  rewrite length_flat_map_const with (n := cnt r); [reflexivity|].
  intros y; rewrite map_length; exact IH.
Qed.

Lemma val_lt is ss : inr_ is ss -> val is ss < cnt ss.
Proof.
  induction 1 as [|i sr is ss Hi Hr IH]; cbn [val cnt]; [lia|].
  assert (i * cnt ss + cnt ss <= length sr * cnt ss) by nia. lia.
Qed.

Lemma nth_error_blocks (P : list (list A)) (l : list A) i j x xs :
  nth_error l i = Some x -> nth_error P j = Some xs ->
  nth_error (flat_map (fun y => map (cons y) P) l) (i * length P + j) = Some (x :: xs).
Proof.
  intros Hi Hj. assert (Hlt : j < length P) by (apply nth_error_Some; congruence).
  revert i Hi; induction l as [|y l IH]; intros i Hi; [destruct i; discriminate|].
  destruct i as [|i]; cbn [nth_error] in Hi; cbn [flat_map].
  - injection Hi as ->. rewrite nth_error_app1 by (rewrite map_length; lia).
    cbn [Nat.mul Nat.add]. erewrite map_nth_error by exact Hj. reflexivity.
  - rewrite nth_error_app2 by (rewrite map_length; cbn [Nat.mul]; lia).
    rewrite map_length.
    replace (S i * length P + j - length P) with (i * length P + j) by (cbn [Nat.mul]; lia).
    apply IH; exact Hi.
Qed.

Lemma combination_nth is ss :
  inr_ is ss -> exists l, combination is ss = Some l /\ nth_error (nested_loops ss) (val is ss) = Some l.
Proof.
  induction 1 as [|i sr is ss Hi Hr (l & Hc & Hn)]; cbn [combination nested_loops val].
  - exists []. split; reflexivity.
  - destruct (nth_error sr i) as [x|] eqn:Hx.
    + rewrite Hc. exists (x :: l); split; [reflexivity|].
      rewrite <- length_nested. apply nth_error_blocks; assumption.
    + apply nth_error_None in Hx; lia.
Qed.

(** left-to-right form of the odometer step *)
Fixpoint adv (is : list nat) ss : bool * list nat :=
  match is, ss with
  | i :: is', sr :: ss' =>
      let (b, is'') := adv is' ss' in
      if b then (true, i :: is'')
      else if S i <? length sr then (true, S i :: is'') else (false, 0 :: is'')
  | _, _ => (false, [])
  end.

Lemma advance_rev_snoc is ss i sr :
  length is = length ss ->
  advance_rev (is ++ [i]) (ss ++ [sr]) =
  match advance_rev is ss with
  | Some (true, is') => Some (true, is' ++ [i])
  | Some (false, is') =>
      if S i <? length sr then Some (true, is' ++ [S i]) else Some (false, is' ++ [0])
  | None => None
  end.
Proof.
  revert ss; induction is as [|k is IH]; intros [|sk ss] Hl; try discriminate Hl.
  - cbn. destruct (S i <? length sr); reflexivity.
  - cbn [app advance_rev]. destruct (S k <? length sk) eqn:Hk; [reflexivity|].
    rewrite IH by (cbn in Hl; lia).
    destruct (advance_rev is ss) as [[[|] is']|]; [reflexivity| |reflexivity].
    destruct (S i <? length sr); reflexivity.
Qed.

Lemma advance_rev_adv is ss :
  length is = length ss ->
  advance_rev (rev is) (rev ss) = Some (fst (adv is ss), rev (snd (adv is ss))).
Proof.
  revert ss; induction is as [|i is IH]; intros [|sr ss] Hl; try discriminate Hl; [reflexivity|].
  cbn [rev adv]. cbn in Hl. injection Hl as Hl.
  rewrite advance_rev_snoc by (rewrite !rev_length; exact Hl).
  rewrite IH by exact Hl.
  destruct (adv is ss) as [[|] is']; cbn [fst snd]; [reflexivity|].
  destruct (S i <? length sr); reflexivity.
Qed.

Lemma adv_spec is ss :
  inr_ is ss ->
  inr_ (snd (adv is ss)) ss /\
  (fst (adv is ss) = true -> val (snd (adv is ss)) ss = S (val is ss)) /\
  (fst (adv is ss) = false -> val (snd (adv is ss)) ss = 0 /\ S (val is ss) = cnt ss).
Proof.
  induction 1 as [|i sr is ss Hi Hr (IHr & IHt & IHf)]; cbn [adv].
  - cbn; repeat split; try discriminate. constructor.
  - destruct (adv is ss) as [[|] is']; cbn [fst snd] in *.
    + repeat split; try discriminate; [constructor; assumption|].
      intros _; cbn [val]. rewrite IHt by reflexivity; lia.
    + destruct (IHf eq_refl) as (Hv & Hc). destruct (Nat.ltb_spec (S i) (length sr)) as [Hlt|Hge];
        cbn [fst snd]; repeat split; try discriminate; try (constructor; [lia|assumption]).
      * intros _; cbn [val]. rewrite Hv. cbn [Nat.mul]. lia.
      * cbn [val]; lia.
      * cbn [val cnt]. assert (length sr = S i) as -> by lia. cbn [Nat.mul]. lia.
Qed.

(** The iterator after [k] calls of [next]. *)
Definition at_ ss k (c : cp A) : Prop :=
  sources c = ss /\
  ((is_exhausted c = false /\ inr_ (indices c) ss /\ ss <> [] /\ val (indices c) ss = k) \/
   (is_exhausted c = true /\ length (all_combinations ss) <= k)).

Lemma cnt_existsb ss : existsb is_empty ss = true -> cnt ss = 0.
Proof.
  induction ss as [|x r IH]; cbn; [discriminate|].
  destruct x; cbn; [reflexivity|]. intros H; rewrite (IH H); lia.
Qed.

Lemma inr_zero ss : existsb is_empty ss = false -> inr_ (repeat 0 (length ss)) ss.
Proof.
  induction ss as [|x r IH]; cbn; [constructor|]. intros H.
  apply orb_false_iff in H as (Hx & Hr). constructor; [destruct x; cbn in *; [discriminate|lia]|].
  apply IH; exact Hr.
Qed.

Lemma val_zero n ss : val (repeat 0 n) ss = 0.
Proof. revert ss; induction n as [|n IH]; intros [|x r]; cbn; auto. Qed.

Lemma length_all ss : length (all_combinations ss) = match ss with [] => 0 | _ => cnt ss end.
Proof. destruct ss; [reflexivity|]. unfold all_combinations; apply length_nested. Qed.

Lemma at_init ss : at_ ss 0 (from_vecs ss).
Proof.
  split; [reflexivity|]. unfold from_vecs; cbn [is_exhausted indices].
  destruct ss as [|x r].
  - right; cbn; split; [reflexivity|lia].
  - cbn [is_empty orb]. destruct (existsb is_empty (x :: r)) eqn:He.
    + right; split; [reflexivity|]. rewrite length_all, cnt_existsb by exact He; lia.
    + left; repeat split; try discriminate; [apply inr_zero; exact He|apply val_zero].
Qed.

Lemma next_at ss k c :
  at_ ss k c ->
  exists c', next c = Ok (nth_error (all_combinations ss) k, c') /\ at_ ss (S k) c'.
Proof.
  intros (Hs & [(He & Hr & Hne & Hv)|(He & Hk)]); unfold next; rewrite He.
  - unfold current_combination, advance_indices; rewrite Hs.
    destruct (combination_nth _ _ Hr) as (l & Hc & Hn). rewrite Hc.
    assert (Hlen : length (indices c) = length ss) by (eapply Forall2_length'; exact Hr).
    rewrite Hlen, firstn_all.
    destruct (indices c) as [|i0 is0] eqn:Hi;
      [destruct ss; [congruence|discriminate Hlen]|].
    rewrite <- Hi in *. rewrite advance_rev_adv by exact Hlen.
    destruct (adv_spec _ _ Hr) as (Har & Hat & Haf).
    rewrite rev_involutive.
    eexists; split.
    { destruct ss; [congruence|]. unfold all_combinations. rewrite <- Hv, Hn. reflexivity. }
    split; cbn [sources indices is_exhausted]; [reflexivity|].
    destruct (fst (adv (indices c) ss)) eqn:Hb.
    + left; repeat split; try assumption. rewrite Hat by reflexivity; lia.
    + right; split; [reflexivity|]. destruct (Haf eq_refl) as (_ & Hcn).
      rewrite length_all. destruct ss; lia.
  - exists c; split.
    + f_equal; f_equal. symmetry; apply nth_error_None; exact Hk.
    + split; [exact Hs|right]. split; [exact He|lia].
Qed.

Lemma nexts_at ss n : forall k c,
  at_ ss k c ->
  exists c', nexts n c = Ok (map (nth_error (all_combinations ss)) (seq k n), c') /\ at_ ss (k + n) c'.
Proof.
  induction n as [|n IH]; intros k c H; cbn [nexts seq map].
  - exists c. rewrite Nat.add_0_r. auto.
  - destruct (next_at ss k c H) as (c1 & Hn & H1).
    destruct (IH (S k) c1 H1) as (c2 & Hns & H2).
    exists c2. rewrite Hn; cbn [bind]. rewrite Hns; cbn [bind].
    split; [reflexivity|]. replace (k + S n) with (S k + n) by lia. exact H2.
Qed.

(** C01: the sequence of results of [n] calls of [next]. *)
Lemma nexts_from_vecs ss n :
  exists c', nexts n (from_vecs ss) = Ok (map (nth_error (all_combinations ss)) (seq 0 n), c').
Proof. destruct (nexts_at ss n 0 _ (at_init ss)) as (c' & H & _). exists c'; exact H. Qed.

Lemma nth_error_skipn {B} (l : list B) k x :
  nth_error l k = Some x -> skipn k l = x :: skipn (S k) l.
Proof.
  revert l; induction k as [|k IH]; intros [|y l] H; try discriminate H.
  - injection H as ->. reflexivity.
  - cbn [skipn]. apply IH. exact H.
Qed.

Lemma collect_at ss fuel : forall k c,
  at_ ss k c -> length (all_combinations ss) < fuel + k -> 0 < fuel ->
  collect fuel c = Ok (skipn k (all_combinations ss)).
Proof.
  induction fuel as [|fuel IH]; intros k c H Hl Hp; [lia|].
  cbn [collect]. destruct (next_at ss k c H) as (c1 & Hn & H1). rewrite Hn; cbn [bind].
  destruct (nth_error (all_combinations ss) k) as [x|] eqn:Hx.
  - assert (k < length (all_combinations ss)) by (apply nth_error_Some; congruence).
    rewrite (IH (S k)) by (try exact H1; lia). cbn [bind].
    rewrite (nth_error_skipn _ _ _ Hx). reflexivity.
  - apply nth_error_None in Hx. rewrite skipn_all2 by exact Hx. reflexivity.
Qed.

Lemma collect_from_vecs ss fuel :
  length (all_combinations ss) < fuel -> collect fuel (from_vecs ss) = Ok (all_combinations ss).
Proof.
  intros H. rewrite (collect_at ss fuel 0) by (try apply at_init; lia). reflexivity.
Qed.

(** size hint *)
Lemma try_fold_mul_spec ss : forall acc,
  (0 < acc)%N -> (acc <= usize_max)%N -> existsb is_empty ss = false ->
  try_fold_mul acc (map (fun v => N.of_nat (length v)) ss) =
  (let t := (acc * N.of_nat (cnt ss))%N in if (t <=? usize_max)%N then Some t else None).
Proof.
  induction ss as [|x r IH]; intros acc Hp Hle He; cbn [map try_fold_mul cnt].
  - cbv zeta. rewrite N.mul_1_r. destruct (N.leb_spec acc usize_max); [reflexivity|lia].
  - cbn in He; apply orb_false_iff in He as (Hx & Hr).
    assert (Hxp : (0 < N.of_nat (length x))%N) by (destruct x; cbn in *; [discriminate|lia]).
    assert (Hc : (0 < N.of_nat (cnt r))%N).
    { clear - Hr. assert (0 < cnt r); [|lia].
      induction r as [|y r IH]; cbn; [lia|]. cbn in Hr; apply orb_false_iff in Hr as (Hy & Hr).
      specialize (IH Hr). destruct y; cbn in *; [discriminate|lia]. }
    unfold checked_mul; cbv zeta.
    destruct (N.leb_spec (acc * N.of_nat (length x)) usize_max) as [H|H].
    + rewrite IH by (try assumption; nia). cbv zeta. rewrite Nat2N.inj_mul, N.mul_assoc. reflexivity.
    + destruct (N.leb_spec (acc * N.of_nat (length x * cnt r)) usize_max) as [H2|H2]; [|reflexivity].
      rewrite Nat2N.inj_mul, N.mul_assoc in H2. nia.
Qed.

Lemma generated_rev_snoc is ss i sr : forall g m,
  length is = length ss ->
  generated_rev g m (is ++ [i]) (ss ++ [sr]) =
  (generated_rev g m is ss + N.of_nat i * (m * N.of_nat (cnt ss)))%N.
Proof.
  revert ss; induction is as [|k is IH]; intros [|sk ss] g m Hl; try discriminate Hl.
  - cbn. lia.
  - cbn [app generated_rev cnt]. rewrite IH by (cbn in Hl; lia).
    f_equal. rewrite Nat2N.inj_mul. ring.
Qed.

Lemma cnt_app a b : cnt (a ++ b) = cnt a * cnt b.
Proof. induction a as [|x r IH]; cbn; [lia|]. rewrite IH; lia. Qed.
Lemma cnt_rev ss : cnt (rev ss) = cnt ss.
Proof. induction ss as [|x r IH]; cbn [rev cnt]; [reflexivity|]. rewrite cnt_app, IH; cbn; lia. Qed.

Lemma generated_val is ss :
  length is = length ss -> generated_rev 0 1 (rev is) (rev ss) = N.of_nat (val is ss).
Proof.
  revert ss; induction is as [|i is IH]; intros [|sr ss] Hl; try discriminate Hl; [reflexivity|].
  cbn [rev val]. cbn in Hl; injection Hl as Hl.
  rewrite generated_rev_snoc by (rewrite !rev_length; exact Hl).
  rewrite IH by exact Hl. rewrite cnt_rev. lia.
Qed.

Lemma inr_nonempty is ss : inr_ is ss -> existsb is_empty ss = false.
Proof. induction 1 as [|i sr is ss Hi Hr IH]; cbn; [reflexivity|]. destruct sr; cbn in *; [lia|exact IH]. Qed.

Lemma size_hint_at ss k c :
  at_ ss k c ->
  size_hint c =
  (let total := N.of_nat (length (all_combinations ss)) in
   let remaining := (total - N.of_nat k)%N in
   if (total <=? usize_max)%N || (remaining =? 0)%N then (remaining, Some remaining)
   else (0%N, None)).
Proof.
  intros (Hs & [(He & Hr & Hne & Hv)|(He & Hk)]); unfold size_hint; rewrite He.
  - unfold total_combinations; rewrite Hs.
    rewrite length_all. destruct ss as [|x r] eqn:Hss; [congruence|]. rewrite <- Hss in *.
    assert (Hlen : length (indices c) = length ss) by (eapply Forall2_length'; exact Hr).
    rewrite try_fold_mul_spec; [|lia|vm_compute; discriminate|eapply inr_nonempty; exact Hr].
    cbv zeta. rewrite N.mul_1_l, Hlen, firstn_all, generated_val, Hv by exact Hlen.
    pose proof (val_lt _ _ Hr) as Hlt. rewrite Hv in Hlt.
    destruct (N.leb_spec (N.of_nat (cnt ss)) usize_max); cbn [orb]; [reflexivity|].
    destruct (N.eqb_spec (N.of_nat (cnt ss) - N.of_nat k) 0); [lia|reflexivity].
  - cbv zeta. replace (N.of_nat (length (all_combinations ss)) - N.of_nat k)%N with 0%N by lia.
    rewrite N.eqb_refl, orb_true_r. reflexivity.
Qed.

Lemma size_hint_after ss k os c :
  nexts k (from_vecs ss) = Ok (os, c) ->
  size_hint c =
  (let total := N.of_nat (length (all_combinations ss)) in
   let remaining := (total - N.of_nat k)%N in
   if (total <=? usize_max)%N || (remaining =? 0)%N then (remaining, Some remaining)
   else (0%N, None)).
Proof.
  intros H. destruct (nexts_at ss k 0 _ (at_init ss)) as (c' & Hn & Ha).
  rewrite Hn in H; injection H as <- <-. rewrite (size_hint_at ss k); [reflexivity|exact Ha].
Qed.

Lemma indices_length ss n : forall c os c',
  length (indices c) = length ss -> sources c = ss -> nexts n c = Ok (os, c') ->
  length (indices c') = length ss /\ sources c' = ss.
Proof.
  induction n as [|n IH]; intros c os c' Hl Hs H; cbn [nexts] in H.
  - injection H as <- <-. auto.
  - destruct (next c) as [[o c1]| |] eqn:Hn; try discriminate H. cbn [bind] in H.
    destruct (nexts n c1) as [[os1 c2]| |] eqn:Hns; try discriminate H. cbn [bind] in H.
    injection H as <- <-.
    eapply IH; [| |exact Hns].
    + unfold next in Hn. destruct (is_exhausted c); [injection Hn as <- <-; exact Hl|].
      destruct (current_combination c); [|discriminate].
      destruct (advance_indices c) as [[b is']|] eqn:Ha; [|discriminate].
      injection Hn as <- <-; cbn [indices].
      unfold advance_indices in Ha. rewrite Hs, Hl, firstn_all in Ha.
      destruct (indices c) eqn:Hi; [injection Ha as <- <-; cbn in *; exact Hl|].
      rewrite <- Hi in *. rewrite advance_rev_adv in Ha by exact Hl.
      rewrite rev_involutive in Ha. injection Ha as <- <-.
      rewrite <- Hl. clear -Hl.
      revert ss Hl; generalize (indices c) as is.
      induction is as [|i is IH]; intros [|sr ss] Hl; try discriminate Hl; [reflexivity|].
      cbn [adv]. specialize (IH ss ltac:(cbn in Hl; lia)).
      destruct (adv is ss) as [[|] is']; cbn [fst snd] in *;
        [|destruct (S i <? length sr)]; cbn; lia.
    + unfold next in Hn. destruct (is_exhausted c); [injection Hn as <- <-; exact Hs|].
      destruct (current_combination c); [|discriminate].
      destruct (advance_indices c) as [[b is']|]; [|discriminate].
      injection Hn as <- <-; exact Hs.
Qed.

Lemma reset_fresh ss k os c :
  ss <> [] -> nexts k (from_vecs ss) = Ok (os, c) -> reset c = from_vecs ss.
Proof.
  intros Hne H.
  destruct (indices_length ss k (from_vecs ss) os c) as (Hl & Hs);
    [cbn; apply repeat_length|reflexivity|exact H|].
  unfold reset, from_vecs, has_empty_source. rewrite Hs, Hl. destruct ss; [congruence|reflexivity].
Qed.
End P.
