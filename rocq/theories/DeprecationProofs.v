(** Proofs about the deprecation visitor and service. *)
From Coq Require Import String Sorting.Sorted Sorting.Permutation.
From Verif Require Import Base Token Types Values Ast Env Item AliasSubstitution Deprecation Interpreter
  Expand Eval BaseFacts SpecDeprecation.
Open Scope list_scope.

(** ** Strings and warnings are ordered *)
Lemma str_compare_eq a : forall b, str_compare a b = Eq <-> a = b.
Proof.
  induction a as [|x a IH]; intros [|y b]; cbn; split; intros H; try discriminate H; auto.
  - destruct (N.compare x y) eqn:E; try discriminate H. apply N.compare_eq in E. apply IH in H. congruence.
  - injection H as -> ->. rewrite N.compare_refl. apply IH. reflexivity.
Qed.
Lemma str_compare_antisym a : forall b, str_compare b a = CompOpp (str_compare a b).
Proof.
  induction a as [|x a IH]; intros [|y b]; cbn; auto.
  rewrite N.compare_antisym. destruct (N.compare x y); cbn; auto.
Qed.
Lemma str_compare_trans a : forall b c, str_compare a b = Lt -> str_compare b c = Lt -> str_compare a c = Lt.
Proof.
  induction a as [|x a IH]; intros [|y b] [|z c]; cbn; intros H1 H2; try discriminate; auto.
  destruct (N.compare x y) eqn:E1; try discriminate H1; destruct (N.compare y z) eqn:E2; try discriminate H2.
  - apply N.compare_eq in E1, E2. subst. rewrite N.compare_refl. eauto.
  - apply N.compare_eq in E1. subst. rewrite E2. reflexivity.
  - apply N.compare_eq in E2. subst. rewrite E1. reflexivity.
  - rewrite N.compare_lt_iff in *. assert (E : (x < z)%N) by lia. rewrite <- N.compare_lt_iff in E. rewrite E. reflexivity.
Qed.

Lemma warning_compare_eq a b : warning_compare a b = Eq <-> a = b.
Proof.
  unfold warning_compare. destruct a as [n s], b as [n' s']; cbn. split; intros H.
  - destruct (str_compare n n') eqn:E; try discriminate H. apply str_compare_eq in E, H. congruence.
  - injection H as -> ->. rewrite (proj2 (str_compare_eq n' n') eq_refl). apply str_compare_eq. reflexivity.
Qed.
Lemma warning_compare_antisym a b : warning_compare b a = CompOpp (warning_compare a b).
Proof.
  unfold warning_compare. rewrite (str_compare_antisym (note a)).
  destruct (str_compare (note a) (note b)); cbn; auto. apply str_compare_antisym.
Qed.
Definition warning_lt a b := warning_compare a b = Lt.
Lemma warning_lt_trans a b c : warning_lt a b -> warning_lt b c -> warning_lt a c.
Proof.
  unfold warning_lt, warning_compare. intros H1 H2.
  destruct (str_compare (note a) (note b)) eqn:E1; try discriminate H1;
  destruct (str_compare (note b) (note c)) eqn:E2; try discriminate H2.
  - apply str_compare_eq in E1, E2. rewrite E1, E2, (proj2 (str_compare_eq _ _) eq_refl). eapply str_compare_trans; eauto.
  - apply str_compare_eq in E1. rewrite E1, E2. reflexivity.
  - apply str_compare_eq in E2. rewrite <- E2, E1. reflexivity.
  - rewrite (str_compare_trans _ _ _ E1 E2). reflexivity.
Qed.

Lemma insert_in w l x : In x (insert w l) <-> x = w \/ In x l.
Proof.
  induction l as [|y r IH]; cbn; [intuition congruence|].
  destruct (warning_compare w y) eqn:E; cbn; rewrite ?IH; [|intuition congruence|intuition congruence].
  apply warning_compare_eq in E. subst. intuition congruence.
Qed.
Lemma insert_sorted w l : StronglySorted warning_lt l -> StronglySorted warning_lt (insert w l).
Proof.
  induction 1 as [|y r Hs IH Hf]; cbn; [repeat constructor|].
  destruct (warning_compare w y) eqn:E.
  - constructor; auto.
  - constructor; [constructor; auto|]. constructor; [exact E|].
    eapply Forall_impl; [|exact Hf]. intros z Hz. eapply warning_lt_trans; eauto.
  - constructor; auto. apply Forall_forall. intros z Hz. apply insert_in in Hz as [->|Hz].
    + unfold warning_lt. rewrite warning_compare_antisym, E. reflexivity.
    + rewrite Forall_forall in Hf. auto.
Qed.
Lemma warning_lt_irrefl a : ~ warning_lt a a.
Proof. unfold warning_lt. rewrite (proj2 (warning_compare_eq a a) eq_refl). discriminate. Qed.
Lemma sorted_nodup l : StronglySorted warning_lt l -> NoDup l.
Proof.
  induction 1 as [|y r Hs IH Hf]; constructor; auto. intros Hin.
  rewrite Forall_forall in Hf. exact (warning_lt_irrefl y (Hf y Hin)).
Qed.

(** ** The visitor *)
Lemma pop_rev {A} (l : list A) : pop (rev l) = match l with [] => None | x :: r => Some (x, rev r) end.
Proof. unfold pop. rewrite rev_involutive. reflexivity. Qed.


Lemma names_deprecated_iff m : names_deprecated m = true <-> deprecated_meta m.
Proof.
  unfold deprecated_meta. destruct m as [|[x|c j|l|d ts] r]; cbn;
    try (split; [discriminate|intros (? & H & _); discriminate H]).
  destruct r as [|[x1|c1 j1|l1|d1 ts1] r]; cbn.
  1,2,4,5: rewrite str_eqb_eq; split;
    [intros ->; eexists; split; [reflexivity|intros; discriminate]|intros (? & H & _); congruence].
  destruct r as [|[x2|c2 j2|l2|d2 ts2] r]; cbn.
  1,2,4,5: rewrite str_eqb_eq; split;
    [intros ->; eexists; split; [reflexivity|intros; discriminate]|intros (? & H & _); congruence].
  rewrite andb_true_iff, str_eqb_eq, negb_true_iff. split.
  - intros [-> H]. eexists. split; [reflexivity|]. intros k1 k2 q E. injection E as -> <- -> <- <-.
    cbn in H. discriminate H.
  - intros (rest & H & Hn). injection H as -> <-. split; [reflexivity|].
    destruct (N.eqb c1 58) eqn:E1; [|reflexivity]. destruct (N.eqb c2 58) eqn:E2; [|reflexivity].
    apply N.eqb_eq in E1, E2. subst. exfalso. eapply Hn. reflexivity.
Qed.

Definition is_dep (n : list attr * bool) : bool :=
  existsb (fun a => names_deprecated (meta a)) (fst n) || snd n.
Lemma is_dep_iff n : is_dep n = true <-> is_deprecated n.
Proof.
  unfold is_dep, is_deprecated. rewrite orb_true_iff, existsb_exists. split.
  - intros [(a & Hin & H)|H]; [right|left; auto]. exists a. split; auto. apply names_deprecated_iff; auto.
  - intros [H|(a & Hin & H)]; [right; auto|left]. exists a. split; auto. apply names_deprecated_iff; auto.
Qed.
Lemma is_dep_false n : is_dep n = false <-> ~ is_deprecated n.
Proof. rewrite <- is_dep_iff. destruct (is_dep n); split; congruence. Qed.

(** Functional form of [annotated] with the warnings left over. *)
Fixpoint annotate (prefix : str) (ws : list warning) (l : list (list attr * bool))
  : list warning * list (list attr * bool) :=
  match l with
  | [] => (ws, [])
  | n :: r =>
      match ws with
      | [] => ([], n :: r)
      | w :: ws' =>
          if is_dep n then let (o, r') := annotate prefix ws r in (o, n :: r')
          else let (o, r') := annotate prefix ws' r in (o, (fst n ++ [deprecation prefix w], snd n) :: r')
      end
  end.

Lemma annotate_nil p l : annotate p [] l = ([], l).
Proof. destruct l; reflexivity. Qed.
Lemma annotate_app p l1 : forall ws l2,
  annotate p ws (l1 ++ l2) =
  let (o1, r1) := annotate p ws l1 in let (o2, r2) := annotate p o1 l2 in (o2, r1 ++ r2).
Proof.
  induction l1 as [|n r IH]; intros ws l2; cbn [annotate app].
  - destruct (annotate p ws l2); reflexivity.
  - destruct ws as [|w ws]; [rewrite annotate_nil; reflexivity|].
    destruct (is_dep n); rewrite IH; destruct (annotate p _ r); destruct (annotate p _ l2); reflexivity.
Qed.

Lemma annotate_annotated p l : forall ws, annotated p ws l (snd (annotate p ws l)).
Proof.
  induction l as [|n r IH]; intros ws; cbn [annotate]; [constructor|].
  destruct ws as [|w ws]; [constructor|]. destruct (is_dep n) eqn:E.
  - apply is_dep_iff in E. specialize (IH (w :: ws)). destruct (annotate p (w :: ws) r). constructor; auto.
  - apply is_dep_false in E. specialize (IH ws). destruct (annotate p ws r). constructor; auto.
Qed.

Lemma visit_tree_spec p t : forall ws,
  let '(o, t') := visit_tree p (rev ws) t in
  (rev o, tree_nodes t') = annotate p ws (tree_nodes t) /\ tree_skeleton t' = tree_skeleton t.
Proof.
  assert (Each : forall l, Forall (fun t => forall ws,
       let '(o, t') := visit_tree p (rev ws) t in
       (rev o, tree_nodes t') = annotate p ws (tree_nodes t) /\ tree_skeleton t' = tree_skeleton t) l ->
     forall ws, let '(o, l') := visit_each (visit_tree p) (rev ws) l in
       (rev o, nodes l') = annotate p ws (nodes l) /\ skeleton l' = skeleton l).
  { clear t. induction 1 as [|t l Ht Hl IH]; intros ws; cbn [visit_each].
    - cbn. rewrite rev_involutive. auto.
    - specialize (Ht ws). destruct (visit_tree p (rev ws) t) as [o1 t'] eqn:E1. destruct Ht as [Ht1 Ht2].
      specialize (IH (rev o1)). rewrite rev_involutive in IH.
      destruct (visit_each (visit_tree p) o1 l) as [o2 l'] eqn:E2. destruct IH as [IH1 IH2].
      unfold nodes, skeleton in *. cbn [flat_map map]. rewrite annotate_app, <- Ht1, <- IH1. split; congruence. }
  induction t as [t0|d l Hl|a b l Hl] using tree_ind'; intros ws; cbn [visit_tree].
  - cbn. rewrite rev_involutive. auto.
  - specialize (Each l Hl ws). destruct (visit_each (visit_tree p) (rev ws) l) as [o l']. destruct Each as [E1 E2].
    cbn [tree_nodes tree_skeleton]. unfold nodes, skeleton in *. split; [exact E1|congruence].
  - unfold process_deprecations. rewrite pop_rev. cbn [tree_nodes annotate].
    destruct ws as [|w ws].
    + specialize (Each l Hl []). cbn [rev] in *. destruct (visit_each (visit_tree p) [] l) as [o l'].
      destruct Each as [E1 E2]. rewrite annotate_nil in E1. injection E1 as E1 E1'.
      cbn [tree_nodes tree_skeleton]. unfold nodes, skeleton in *. split; congruence.
    + change (existsb (fun a0 => names_deprecated (meta a0)) a || b) with (is_dep (a, b)).
      destruct (is_dep (a, b)).
      * specialize (Each l Hl (w :: ws)). destruct (visit_each (visit_tree p) (rev (w :: ws)) l) as [o l'].
        destruct Each as [E1 E2]. cbn [tree_nodes tree_skeleton]. unfold nodes, skeleton in *.
        rewrite <- E1. split; congruence.
      * specialize (Each l Hl ws). destruct (visit_each (visit_tree p) (rev ws) l) as [o l'].
        destruct Each as [E1 E2]. cbn [tree_nodes tree_skeleton]. unfold nodes, skeleton in *.
        rewrite <- E1. split; [reflexivity|congruence].
Qed.

Lemma visit_each_spec p l : forall ws,
  let '(o, l') := visit_each (visit_tree p) (rev ws) l in
  (rev o, nodes l') = annotate p ws (nodes l) /\ skeleton l' = skeleton l.
Proof.
  induction l as [|t l IH]; intros ws; cbn [visit_each].
  - cbn. rewrite rev_involutive. auto.
  - pose proof (visit_tree_spec p t ws) as Ht. destruct (visit_tree p (rev ws) t) as [o1 t']. destruct Ht as [Ht1 Ht2].
    specialize (IH (rev o1)). rewrite rev_involutive in IH.
    destruct (visit_each (visit_tree p) o1 l) as [o2 l']. destruct IH as [IH1 IH2].
    unfold nodes, skeleton in *. cbn [flat_map map]. rewrite annotate_app, <- Ht1, <- IH1. split; congruence.
Qed.

Lemma emit_spec s f :
  annotated (s_prefix s) (warnings s) (nodes f) (nodes (emit s f)) /\ skeleton (emit s f) = skeleton f.
Proof.
  unfold emit. destruct (warnings s) as [|w ws] eqn:E; [split; [constructor|reflexivity]|].
  pose proof (visit_each_spec (s_prefix s) f (w :: ws)) as H.
  destruct (visit_each (visit_tree (s_prefix s)) (rev (w :: ws)) f) as [o f'] eqn:E'. cbn [snd].
  destruct H as [H1 H2]. split; [|exact H2].
  pose proof (annotate_annotated (s_prefix s) (nodes f) (w :: ws)) as H. rewrite <- H1 in H. exact H.
Qed.

(** The relation determines the result. *)
Lemma annotated_fun p ws l l1 : annotated p ws l l1 -> l1 = snd (annotate p ws l).
Proof.
  induction 1 as [ws|l|ws n l l' Hd H IH|w ws n l l' Hd H IH].
  - reflexivity.
  - rewrite annotate_nil. reflexivity.
  - cbn [annotate]. destruct ws as [|w ws]; [rewrite annotate_nil in IH; cbn in *; congruence|].
    apply is_dep_iff in Hd. rewrite Hd. destruct (annotate p (w :: ws) l). cbn in *. congruence.
  - cbn [annotate]. apply is_dep_false in Hd. rewrite Hd. destruct (annotate p ws l). cbn in *. congruence.
Qed.
Lemma annotated_unique p ws l l1 l2 : annotated p ws l l1 -> annotated p ws l l2 -> l1 = l2.
Proof. intros H1 H2. rewrite (annotated_fun _ _ _ _ H1), (annotated_fun _ _ _ _ H2). reflexivity. Qed.

(** The skeleton and the nodes determine the forest. *)
Lemma tree_determined t : forall t' k k', tree_skeleton t = tree_skeleton t' ->
  tree_nodes t ++ k = tree_nodes t' ++ k' -> t = t' /\ k = k'.
Proof.
  assert (Each : forall l, Forall (fun t => forall t' k k', tree_skeleton t = tree_skeleton t' ->
       tree_nodes t ++ k = tree_nodes t' ++ k' -> t = t' /\ k = k') l ->
     forall l' k k', skeleton l = skeleton l' -> nodes l ++ k = nodes l' ++ k' -> l = l' /\ k = k').
  { clear t. induction 1 as [|t l Ht Hl IH]; intros [|t' l'] k k' Hs Hn; try discriminate Hs; [auto|].
    injection Hs as Hs1 Hs2. unfold nodes in Hn. cbn [flat_map] in Hn. rewrite <- !app_assoc in Hn.
    destruct (Ht _ _ _ Hs1 Hn) as [-> Hn']. destruct (IH _ _ _ Hs2 Hn') as [-> ->]. auto. }
  induction t as [t0|d l Hl|a b l Hl] using tree_ind'; intros [t'|d' l'|a' b' l'] k k' Hs Hn; try discriminate Hs.
  - injection Hs as ->. auto.
  - injection Hs as -> Hs. destruct (Each l Hl l' k k' Hs Hn) as [-> ->]. auto.
  - injection Hs as -> Hs. cbn [tree_nodes app] in Hn. injection Hn as -> Hn.
    destruct (Each l Hl l' k k' Hs Hn) as [-> ->]. auto.
Qed.
Lemma forest_determined f : forall f', skeleton f = skeleton f' -> nodes f = nodes f' -> f = f'.
Proof.
  induction f as [|t f IH]; intros [|t' f'] Hs Hn; try discriminate Hs; [auto|].
  injection Hs as Hs1 Hs2. destruct (tree_determined t t' _ _ Hs1 Hn) as [-> Hn']. f_equal. auto.
Qed.

Lemma emit_nothing s f : warnings s = [] -> emit s f = f.
Proof. unfold emit. intros ->. reflexivity. Qed.

(** At most one attribute per node, at the end of its attributes, only on nodes that have
    none. *)
Lemma annotated_each p ws l l' : annotated p ws l l' ->
  Forall2 (fun n n' => n' = n \/ (~ is_deprecated n /\ exists w, In w ws /\ n' = (fst n ++ [deprecation p w], snd n))) l l'.
Proof.
  induction 1 as [ws|l|ws n l l' Hd H IH|w ws n l l' Hd H IH].
  - constructor.
  - induction l; constructor; auto.
  - constructor; auto.
  - constructor; [right; split; auto; exists w; cbn; auto|].
    clear -IH. induction IH as [|m m' l l' Hm _ IH]; constructor; auto.
    destruct Hm as [->|(Hm & v & Hv & ->)]; [auto|right; split; auto; exists v; cbn; auto].
Qed.

(** The number of attributes. *)
Lemma annotated_count p ws l l' : annotated p ws l l' ->
  length (flat_map fst l') = length (flat_map fst l) + Nat.min (length ws) (length (filter (fun n => negb (is_dep n)) l)).
Proof.
  induction 1 as [ws|l|ws n l l' Hd H IH|w ws n l l' Hd H IH]; cbn [flat_map filter length].
  - rewrite Nat.min_0_r. reflexivity.
  - rewrite Nat.min_0_l. lia.
  - apply is_dep_iff in Hd. rewrite Hd. cbn [negb]. rewrite !app_length, IH. lia.
  - apply is_dep_false in Hd. rewrite Hd. cbn [negb length fst]. rewrite !app_length, IH. cbn [length Nat.min]. lia.
Qed.

Lemma deprecation_is_deprecated p w a b : is_deprecated (a ++ [deprecation p w], b).
Proof.
  right. exists (deprecation p w). split; [apply in_or_app; right; cbn; auto|].
  eexists. split; [reflexivity|]. discriminate.
Qed.

(** The warnings handed out are the first ones, in order. *)
Definition added (l l' : list (list attr * bool)) : list attr :=
  flat_map (fun nn => skipn (length (fst (fst nn))) (fst (snd nn))) (combine l l').
Lemma added_same l : added l l = [].
Proof. unfold added. induction l as [|n l IH]; cbn; [reflexivity|]. rewrite skipn_all, IH. reflexivity. Qed.
Lemma annotated_added p ws l l' : annotated p ws l l' ->
  added l l' = map (deprecation p) (firstn (length (filter (fun n => negb (is_dep n)) l)) ws).
Proof.
  induction 1 as [ws|l|ws n l l' Hd H IH|w ws n l l' Hd H IH].
  - reflexivity.
  - rewrite added_same, firstn_nil. reflexivity.
  - apply is_dep_iff in Hd. cbn [filter]. rewrite Hd. cbn [negb].
    unfold added. cbn [combine flat_map fst snd]. rewrite skipn_all. exact IH.
  - apply is_dep_false in Hd. cbn [filter]. rewrite Hd. cbn [negb length firstn map].
    unfold added. cbn [combine flat_map fst snd]. rewrite skipn_app, skipn_all, Nat.sub_diag. cbn [app skipn]. f_equal. exact IH.
Qed.
