(** Proofs about the parsing phase. *)
From Coq Require Import String.
From Verif Require Import Base BaseFacts Token Types Values Ast Item Interpreter Parse SpecElab SpecParse SpecSubst
  TokenDistance SpecDistance DistanceProofs ExpandProofs.
Open Scope list_scope.

(** ** Distances *)
Lemma leaf_count_leaves t : leaf_count t = List.length (SpecSubst.leaves [t]).
Proof.
  induction t as [x|c j|l|d ts IH] using tt_ind'; try reflexivity.
  unfold SpecSubst.leaves. cbn. rewrite app_nil_r.
  induction IH as [|t ts Ht _ IHts]; [reflexivity|]. cbn. rewrite app_length, <- IHts. f_equal.
  rewrite Ht. unfold SpecSubst.leaves. cbn. rewrite app_nil_r. reflexivity.
Qed.
Lemma distance_to_leaves k ts : distance_to k ts = List.length (SpecSubst.leaves (firstn k ts)).
Proof.
  unfold distance_to. induction (firstn k ts) as [|t l IH]; [reflexivity|]. cbn [fold_right].
  rewrite IH, leaf_count_leaves. change (t :: l) with ([t] ++ l). rewrite DistanceProofs.leaves_app, app_length. reflexivity.
Qed.
Lemma distance_to_cursor ts c l k : position (buffer ts) c -> reads (buffer ts) c l -> k <= List.length l ->
  exists c', advance k (buffer ts) c = Some c' /\ reads (buffer ts) c' (skipn k l) /\
    token_distance (buffer ts) c c' = Ok (distance_to k l).
Proof. intros H1 H2 H3. rewrite distance_to_leaves. apply distance_of_advance; assumption. Qed.

Definition leaf_only (term : tt -> bool) : Prop := forall t, term t = true -> leaf_count t = 1.

Lemma firstn_split {A} k k' (l : list A) : k <= k' -> firstn k' l = firstn k l ++ firstn (k' - k) (skipn k l).
Proof.
  revert k' l; induction k as [|k IH]; intros k' l H; [rewrite Nat.sub_0_r; reflexivity|].
  destruct k' as [|k']; [lia|]. destruct l as [|x l]; [rewrite skipn_nil, !firstn_nil; reflexivity|].
  cbn [firstn skipn app Nat.sub]. rewrite (IH k' l) by lia. reflexivity.
Qed.
Definition total (l : list tt) : nat := fold_right (fun t n => leaf_count t + n) 0 l.
Lemma total_app a b : total (a ++ b) = total a + total b.
Proof. induction a as [|t a IH]; [reflexivity|]. change (leaf_count t + total (a ++ b) = leaf_count t + total a + total b). rewrite IH. lia. Qed.

Lemma distance_to_lt term ts k k' : leaf_only term -> k < k' -> k' <= List.length ts -> ends_at term ts k ->
  distance_to k ts < distance_to k' ts.
Proof.
  intros Hl Hk Hk' [He|(t & r & He & Ht)].
  - assert (List.length (skipn k ts) = 0) by (rewrite He; reflexivity). rewrite skipn_length in *. lia.
  - change (total (firstn k ts) < total (firstn k' ts)). rewrite (firstn_split k k') by lia. rewrite total_app, He.
    replace (k' - k) with (S (k' - k - 1)) by lia. cbn [firstn]. change (total (firstn k ts) < total (firstn k ts) + (leaf_count t + total (firstn (k' - k - 1) r))). rewrite (Hl t Ht). lia.
Qed.

Lemma comma_leaf : leaf_only is_comma.
Proof. intros [x|c j|l|d ts] H; [reflexivity|reflexivity|reflexivity|discriminate H]. Qed.

(** ** Values *)
Definition class_attempt (P : parsers) (c : class) (ts : list tt) : option candidate :=
  match c with
  | ClInt => lit_int_candidate P ts
  | ClStr => lit_str_candidate P ts
  | ClUnderscore => underscore_candidate ts
  | ClIdent => ident_candidate P ts
  | ClPath => node_candidate VPath (pre_path P ts)
  | ClType => node_candidate VType (pre_type P ts)
  | ClExpr => node_candidate VExpr (pre_expr P ts)
  end.
Definition classes := [ClInt; ClStr; ClUnderscore; ClIdent; ClPath; ClType; ClExpr].

Lemma takes_attempt P c ts v k u : takes P c ts v k u <-> class_attempt P c ts = Some (v, k, u).
Proof.
  split.
  - intros H; destruct H as [ts d r k H|ts v p k H|r|j r|x r H|ts p k u H|ts t k u H|ts e k u H]; cbn [class_attempt];
      unfold lit_int_candidate, lit_str_candidate, node_candidate;
      try (rewrite H; reflexivity); try reflexivity.
    cbn. rewrite H. reflexivity.
  - destruct c; cbn [class_attempt].
    + unfold lit_int_candidate. destruct (pre_lit_int P ts) as [[[d r] k']|] eqn:E; cbn; intros H; [|discriminate H].
      injection H as <- <- <-. constructor; exact E.
    + unfold lit_str_candidate. destruct (pre_lit_str P ts) as [[[d r] k']|] eqn:E; cbn; intros H; [|discriminate H].
      injection H as <- <- <-. constructor; exact E.
    + unfold underscore_candidate. destruct ts as [|t r]; [discriminate|].
      destruct t as [x|ch j|l|d l]; cbn [is_word is_punct orb]; try discriminate.
      * destruct (str_eqb [95%N] x) eqn:E; [|discriminate]. apply str_eqb_eq in E as <-. intros H.
        injection H as <- <- <-. apply takes_underscore.
      * destruct (N.eqb 95 ch) eqn:E; [|discriminate]. apply N.eqb_eq in E as <-. intros H.
        injection H as <- <- <-. apply takes_underscore_punct.
    + unfold ident_candidate. destruct ts as [|[x|ch j|l|d l] r]; try discriminate.
      destruct (ident_allowed P x) eqn:E; [|discriminate]. intros H. injection H as <- <- <-. constructor; exact E.
    + unfold node_candidate. destruct (pre_path P ts) as [[[d k'] u']|] eqn:E; cbn; intros H; [|discriminate H].
      injection H as <- <- <-. constructor; exact E.
    + unfold node_candidate. destruct (pre_type P ts) as [[[d k'] u']|] eqn:E; cbn; intros H; [|discriminate H].
      injection H as <- <- <-. constructor; exact E.
    + unfold node_candidate. destruct (pre_expr P ts) as [[[d k'] u']|] eqn:E; cbn; intros H; [|discriminate H].
      injection H as <- <- <-. constructor; exact E.
Qed.

Lemma ends_spec term ts k : ends term (skipn k ts) = true <-> ends_at term ts k.
Proof.
  unfold ends_at, ends. destruct (skipn k ts) as [|t r]; split; auto.
  - intros H. right. eauto.
  - intros [H|(t' & r' & H & Ht)]; [discriminate|injection H as <- <-; exact Ht].
Qed.
Lemma try_parse_spec term ts o v k u : try_parse term ts o = Some (v, k, u) <-> o = Some (v, k, u) /\ ends_at term ts k.
Proof.
  unfold try_parse. destruct o as [[[v' k'] u']|]; [|split; [discriminate|intros (H & _); discriminate]].
  destruct (ends term (skipn k' ts)) eqn:E; split.
  - intros H; injection H as <- <- <-. split; [reflexivity|apply ends_spec; exact E].
  - intros (H & _). injection H as <- <- <-. reflexivity.
  - discriminate.
  - intros (H & H'). injection H as <- <- <-. apply ends_spec in H'. congruence.
Qed.

(** The best of the attempts up to a class. *)
Definition best_upto (P : parsers) term ts (cs : list class) (n : N) (o : option (nat * (expr * nat * bool))) (n' : N) : Prop :=
  (n <= n')%N /\
  match o with
  | None => forall c v k u, In c cs -> takes P c ts v k u -> ~ ends_at term ts k
  | Some (w, (e, k, u)) => exists c v id, e = EValue id v /\ (n <= id)%N /\ (id < n')%N /\ In c cs /\ w = distance_to k ts /\
      takes P c ts v k u /\ ends_at term ts k /\
      forall c' v' k' u', In c' cs -> takes P c' ts v' k' u' -> ends_at term ts k' ->
        distance_to k' ts < distance_to k ts \/ (distance_to k' ts = distance_to k ts /\ rank c <= rank c')
  end.

Lemma attempt_step P term ts n o n0 cs c :
  (forall c', In c' cs -> rank c' < rank c) ->
  best_upto P term ts cs n0 o n ->
  let '(n', o') := attempt term ts (n, o) (class_attempt P c ts) in best_upto P term ts (cs ++ [c]) n0 o' n'.
Proof.
  intros Hr (Hn & Hb). unfold attempt. destruct (try_parse term ts (class_attempt P c ts)) as [[[v k] u]|] eqn:E.
  - apply try_parse_spec in E as (E & He). apply takes_attempt in E.
    assert (New : forall b, b = None \/ (exists w e k0 u0, b = Some (w, (e, k0, u0)) /\ w < distance_to k ts) ->
      match b with None => True | Some _ => True end -> o = b ->
      best_upto P term ts (cs ++ [c]) n0 (Some (distance_to k ts, (EValue n v, k, u))) (N.succ n)).
    { intros b Hbb _ ->. split; [lia|]. exists c, v, n. split; [reflexivity|]. split; [lia|]. split; [lia|].
      split; [apply in_app_iff; cbn; auto|]. split; [reflexivity|]. split; [exact E|]. split; [exact He|].
      intros c' v' k' u' Hin Ht He'. apply in_app_iff in Hin as [Hin|[<-|[]]].
      - destruct Hbb as [->|(w & e & k0 & u0 & -> & Hw)].
        + exfalso. exact (Hb c' v' k' u' Hin Ht He').
        + destruct Hb as (c0 & v0 & id & _ & _ & _ & _ & -> & _ & _ & Hmax).
          destruct (Hmax c' v' k' u' Hin Ht He') as [H|(H & _)]; left; lia.
      - apply takes_attempt in Ht, E. rewrite E in Ht. injection Ht as <- <- <-. right. auto. }
    destruct o as [[w [[e k0] u0]]|].
    + destruct (Nat.ltb w (distance_to k ts)) eqn:El.
      * apply Nat.ltb_lt in El. eapply New; [right; eexists; eexists; eexists; eexists; split; [reflexivity|exact El]|exact I|reflexivity].
      * apply Nat.ltb_ge in El. split; [exact Hn|].
        destruct Hb as (c0 & v0 & id & -> & Hid1 & Hid2 & Hin & -> & Ht & He0 & Hmax).
        exists c0, v0, id. split; [reflexivity|]. split; [exact Hid1|]. split; [exact Hid2|]. split; [apply in_app_iff; auto|].
        split; [reflexivity|]. split; [exact Ht|]. split; [exact He0|].
        intros c' v' k' u' Hin' Ht' He'. apply in_app_iff in Hin' as [Hin'|[<-|[]]]; [eauto|].
        apply takes_attempt in Ht', E. rewrite E in Ht'. injection Ht' as <- <- <-.
        specialize (Hr c0 Hin). lia.
    + eapply New; [left; reflexivity|exact I|reflexivity].
  - assert (No : forall v k u, takes P c ts v k u -> ~ ends_at term ts k).
    { intros v k u Ht He. apply takes_attempt in Ht. assert (try_parse term ts (class_attempt P c ts) = Some (v, k, u)) by (apply try_parse_spec; auto). congruence. }
    split; [exact Hn|]. destruct o as [[w [[e k0] u0]]|].
    + destruct Hb as (c0 & v0 & id & -> & Hid1 & Hid2 & Hin & -> & Ht & He0 & Hmax).
      exists c0, v0, id. split; [reflexivity|]. split; [exact Hid1|]. split; [exact Hid2|]. split; [apply in_app_iff; auto|].
      split; [reflexivity|]. split; [exact Ht|]. split; [exact He0|].
      intros c' v' k' u' Hin' Ht' He'. apply in_app_iff in Hin' as [Hin'|[<-|[]]]; [eauto|]. exfalso. exact (No _ _ _ Ht' He').
    + intros c' v' k' u' Hin' Ht'. apply in_app_iff in Hin' as [Hin'|[<-|[]]]; eauto.
Qed.

Lemma class_rank i c : nth_error classes i = Some c -> rank c = i.
Proof.
  do 7 (destruct i as [|i]; [intros H; injection H as <-; reflexivity|]). destruct i; discriminate.
Qed.

Lemma attempts_best P term ts n :
  let '(n', o) := fold_left (attempt term ts) (attempts P ts) (n, None) in best_upto P term ts classes n o n'.
Proof.
  assert (Go : forall done todo n1 o1, classes = done ++ todo -> best_upto P term ts done n o1 n1 ->
    let '(n', o) := fold_left (attempt term ts) (map (fun c => class_attempt P c ts) todo) (n1, o1) in
    best_upto P term ts classes n o n').
  { intros done todo; revert done. induction todo as [|c todo IH]; intros done n1 o1 Hc Hb.
    - cbn. rewrite Hc, app_nil_r. exact Hb.
    - cbn [map fold_left]. pose proof (attempt_step P term ts n1 o1 n done c) as Hs.
      destruct (attempt term ts (n1, o1) (class_attempt P c ts)) as [n2 o2].
      apply (IH (done ++ [c])); [rewrite <- app_assoc; exact Hc|]. apply Hs; [|exact Hb].
      intros c' Hin. apply In_nth_error in Hin as (i & Hi).
      assert (Hl : i < List.length done) by (apply nth_error_Some; congruence).
      assert (E1 : nth_error classes i = Some c') by (rewrite Hc, nth_error_app1 by exact Hl; exact Hi).
      assert (E2 : nth_error classes (List.length done) = Some c).
      { rewrite Hc, nth_error_app2 by lia. rewrite Nat.sub_diag. reflexivity. }
      apply class_rank in E1, E2. lia. }
  apply (Go [] classes n None eq_refl). split; [lia|]. intros c v k u [].
Qed.

Lemma until_spec term ts : exists rest, ts = until term ts ++ rest /\ Forall (fun t => term t = false) (until term ts) /\
  (rest = [] \/ exists t r, rest = t :: r /\ term t = true).
Proof.
  induction ts as [|t r (rest & H1 & H2 & H3)]; [exists []; cbn; auto|]. cbn [until]. destruct (term t) eqn:E.
  - exists (t :: r). repeat split; [constructor|right; eauto].
  - exists rest. cbn [app]. rewrite <- H1. auto.
Qed.

Lemma value_best P term ts n n' e k u : parse_value P term n ts = (n', (e, k, u)) ->
  (exists c v id, e = EValue id v /\ takes P c ts v k u /\ ends_at term ts k /\
     forall c' v' k' u', takes P c' ts v' k' u' -> ends_at term ts k' ->
       distance_to k' ts < distance_to k ts \/ (distance_to k' ts = distance_to k ts /\ rank c <= rank c')) \/
  ((forall c v k u, takes P c ts v k u -> ~ ends_at term ts k) /\
   exists id tokens rest, e = EValue id (VTokens tokens) /\ k = List.length tokens /\ u = false /\ ts = tokens ++ rest /\
     Forall (fun t => term t = false) tokens /\ (rest = [] \/ exists t r, rest = t :: r /\ term t = true)).
Proof.
  unfold parse_value. pose proof (attempts_best P term ts n) as H.
  assert (All : forall c, In c classes) by (intros []; cbn; auto 10).
  destruct (fold_left (attempt term ts) (attempts P ts) (n, None)) as [n1 [[w [[e1 k1] u1]]|]]; destruct H as (Hn & H).
  - destruct H as (c & v & id & -> & _ & _ & _ & _ & Ht & He & Hmax). intros E. injection E as <- <- <- <-. left.
    exists c, v, id. repeat split; eauto.
  - intros E. injection E as <- <- <- <-. right. split; [eauto|].
    destruct (until_spec term ts) as (rest & H1 & H2 & H3). exists n1, (until term ts), rest. auto 10.
Qed.

Lemma takes_within P c ts v k u : within P -> takes P c ts v k u -> k <= List.length ts.
Proof. intros (H1 & H2 & H3 & H4 & H5 & H6) H; destruct H; eauto; cbn; lia. Qed.

Lemma value_longest P term ts n n' e k u : within P -> leaf_only term -> parse_value P term n ts = (n', (e, k, u)) ->
  (exists c v id, e = EValue id v /\ takes P c ts v k u /\ ends_at term ts k /\
     forall c' v' k' u', takes P c' ts v' k' u' -> ends_at term ts k' -> k' < k \/ (k' = k /\ rank c <= rank c')) \/
  ((forall c v k u, takes P c ts v k u -> ~ ends_at term ts k) /\
   exists id tokens rest, e = EValue id (VTokens tokens) /\ k = List.length tokens /\ u = false /\ ts = tokens ++ rest /\
     Forall (fun t => term t = false) tokens /\ (rest = [] \/ exists t r, rest = t :: r /\ term t = true)).
Proof.
  intros Hw Hl H. apply value_best in H as [(c & v & id & E & Ht & He & Hmax)|H]; [left|right; exact H].
  exists c, v, id. split; [exact E|]. split; [exact Ht|]. split; [exact He|].
  intros c' v' k' u' Ht' He'. pose proof (takes_within _ _ _ _ _ _ Hw Ht) as Hk. pose proof (takes_within _ _ _ _ _ _ Hw Ht') as Hk'.
  destruct (Nat.lt_trichotomy k' k) as [Hlt|[Heq|Hgt]]; [auto| |].
  - right. subst k'. split; [reflexivity|]. destruct (Hmax _ _ _ _ Ht' He') as [H|(_ & H)]; [lia|exact H].
  - pose proof (distance_to_lt term ts k k' Hl Hgt Hk' He). destruct (Hmax _ _ _ _ Ht' He') as [H0|(H0 & _)]; lia.
Qed.

Lemma value_ends P term ts n n' e k u : parse_value P term n ts = (n', (e, k, u)) -> ends_at term ts k.
Proof.
  intros H. apply value_best in H as [(c & v & id & _ & _ & He & _)|(_ & id & tokens & rest & _ & -> & _ & -> & _ & H)]; [exact He|].
  unfold ends_at. rewrite skipn_app, skipn_all, Nat.sub_diag. exact H.
Qed.

Lemma value_nothing_lost P term ts n n' e k : printing P -> parse_value P term n ts = (n', (e, k, false)) ->
  exists id v, e = EValue id v /\ (type_of v = TyLitInt \/ (exists j r, ts = TPunct 95%N j :: r) \/ to_tokens v = firstn k ts).
Proof.
  intros (P1 & P2 & P3 & P4) H. apply value_best in H as [(c & v & id & -> & Ht & _)|(_ & id & tokens & rest & -> & -> & _ & -> & _)].
  - exists id, v. split; [reflexivity|]. remember false as u eqn:Eu. destruct Ht; subst; cbn [type_of to_tokens]; auto.
    + right. right. symmetry. eauto.
    + right. left. eauto.
    + right. right. symmetry. eauto.
    + right. right. symmetry. eauto.
    + right. right. symmetry. eauto.
  - exists id, (VTokens tokens). split; [reflexivity|]. right. right. cbn [to_tokens].
    rewrite firstn_app, firstn_all, Nat.sub_diag, firstn_O, app_nil_r. reflexivity.
Qed.

Lemma value_drawn P term ts n n' e k u : parse_value P term n ts = (n', (e, k, u)) ->
  exists id v, e = EValue id v /\ (n <= id)%N /\ (id < n')%N.
Proof.
  unfold parse_value. pose proof (attempts_best P term ts n) as H.
  destruct (fold_left (attempt term ts) (attempts P ts) (n, None)) as [n1 [[w [[e1 k1] u1]]|]]; destruct H as (Hn & H).
  - destruct H as (c & v & id & -> & H1 & H2 & _). intros E. injection E as <- <- <- <-. exists id, v. auto.
  - intros E. injection E as <- <- <- <-. exists n1, (VTokens (until term ts)). repeat split; lia.
Qed.
