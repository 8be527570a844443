(** Proofs for C85. *)
From Coq Require Import String Permutation.
From Verif Require Import Base BaseFacts Token Types Values Ast Env Resolve Eval Expand Item AliasSubstitution Deprecation Interpreter Parse Macro HashMaps
  SpecParse SpecElab ElabFacts ResolveFacts ExpandProofs MacroProofs OrderProofs.
Open Scope list_scope.

Section Maps.
Context {V : Type}.
Notation keys := (map (@fst str V)).
Lemma assoc_filter k (m : list (str * V)) x : str_eqb x k = false -> assoc_str x (filter (fun e => negb (str_eqb k (fst e))) m) = assoc_str x m.
Proof.
  intros N. induction m as [|[y v] m IH]; [reflexivity|]. cbn [filter fst assoc_str]. destruct (str_eqb k y) eqn:E; cbn [negb assoc_str].
  - apply str_eqb_eq in E as <-. rewrite N. exact IH.
  - destruct (str_eqb x y); [reflexivity|exact IH].
Qed.
Lemma insert_lookup k v (m : list (str * V)) x : assoc_str x (map_insert k v m) = if str_eqb x k then Some v else assoc_str x m.
Proof. unfold map_insert. cbn [assoc_str]. destruct (str_eqb x k) eqn:E; [reflexivity|]. apply assoc_filter, E. Qed.
Lemma absent_filter k (m : list (str * V)) : ~ In k (keys m) -> filter (fun e => negb (str_eqb k (fst e))) m = m.
Proof.
  induction m as [|[y v] m IH]; intros H; [reflexivity|]. cbn [filter fst]. destruct (str_eqb k y) eqn:E.
  - apply str_eqb_eq in E as <-. destruct H. left. reflexivity.
  - cbn [negb]. rewrite IH; [reflexivity|]. intros Hi. apply H. right. exact Hi.
Qed.
Lemma extend_fresh l : forall m : list (str * V), NoDup (keys (m ++ l)) -> map_extend m l = rev l ++ m.
Proof.
  induction l as [|[k v] l IH]; intros m H; [reflexivity|]. cbn [map_extend fold_left fst snd]. unfold map_insert at 2.
  assert (Hk : ~ In k (keys m)).
  { rewrite map_app in H. cbn [map fst] in H. apply NoDup_remove_2 in H. intros Hi. apply H, in_or_app. left. exact Hi. }
  rewrite (absent_filter k m Hk). fold (map_extend ((k, v) :: m) l). rewrite IH; [cbn [rev]; rewrite <- app_assoc; reflexivity|].
  eapply Permutation_NoDup; [|exact H]. apply Permutation_map. cbn [app]. apply Permutation_sym, Permutation_middle.
Qed.
Lemma assoc_in (l : list (str * V)) : NoDup (keys l) -> forall x v, assoc_str x l = Some v <-> In (x, v) l.
Proof.
  induction l as [|[y w] l IH]; intros N x v; [split; [discriminate|intros []]|]. inversion N; subst. cbn [assoc_str]. destruct (str_eqb x y) eqn:E.
  - apply str_eqb_eq in E as ->. split; [intros [= ->]; left; reflexivity|]. intros [[= ->]|Hi]; [reflexivity|]. match goal with H : ~ In _ _ |- _ => destruct H end.
    change y with (fst (y, v)). apply in_map, Hi.
  - rewrite IH by assumption. split; [right; assumption|]. intros [[= -> ->]|Hi]; [|exact Hi].
    exfalso. assert (T : str_eqb x x = true) by (apply str_eqb_eq; reflexivity). congruence.
Qed.
Lemma assoc_permuted (l l' : list (str * V)) : Permutation l l' -> NoDup (keys l) -> forall x, assoc_str x l = assoc_str x l'.
Proof.
  intros Hp N x. assert (N' : NoDup (keys l')) by (eapply Permutation_NoDup; [apply Permutation_map, Hp|exact N]).
  destruct (assoc_str x l) as [v|] eqn:E.
  - symmetry. apply assoc_in; [exact N'|]. eapply Permutation_in; [exact Hp|]. apply assoc_in; assumption.
  - destruct (assoc_str x l') as [v|] eqn:E'; [|reflexivity]. apply assoc_in in E'; [|exact N']. apply (Permutation_in _ (Permutation_sym Hp)) in E'.
    apply assoc_in in E'; [congruence|exact N].
Qed.
End Maps.

Section Hashed.
Context (O : oracles) (P : parsers) (Y : syntax).

Lemma items_hashed env sc order : (forall n l, Permutation (order n l) l) -> forall items i ctx m,
  eval_items_hashed O env sc order i ctx items m = let! bs := eval_items O env sc ctx items in Ok (map_extend m bs).
Proof.
  intros Ho. induction items as [|[name e] rest IH]; intros i ctx m; [reflexivity|]. cbn [eval_items_hashed eval_items].
  destruct (eval_expr O env sc _ ctx e) as [v| |]; cbn [bind]; try reflexivity. rewrite IH. destruct (eval_items O env sc ((name, v) :: ctx) rest); cbn [bind]; try reflexivity.
  assert (S : order i (map_insert name v []) = [(name, v)]) by (apply Permutation_length_1_inv, Permutation_sym, Ho). rewrite S. reflexivity.
Qed.
Lemma make_hashed env order spec : (forall n l, Permutation (order n l) l) -> NoDup (item_ids (spec_items spec)) ->
  match make_substitutions O env spec with
  | Ok bs => exists m, make_substitutions_hashed O env order spec = Ok m /\ Permutation m bs /\ NoDup (map fst m) /\ forall x, assoc_str x m = assoc_str x bs
  | Err e => make_substitutions_hashed O env order spec = Err e
  | Panic p => make_substitutions_hashed O env order spec = Panic p
  end.
Proof.
  intros Ho Hn. destruct (make_substitutions O env spec) as [bs|e|p] eqn:E.
  - destruct (success_distinct O env spec bs Hn E) as (N & Hk). unfold make_substitutions in E. unfold make_substitutions_hashed.
    destruct (resolve_items env empty_scope (spec_items spec)) as [sc| |]; try discriminate E. cbn [bind] in *. rewrite (items_hashed env sc order Ho), E. cbn [bind].
    assert (Nb : NoDup (map fst bs)) by (rewrite Hk; exact N). rewrite (extend_fresh bs [] Nb), app_nil_r.
    assert (Pm : Permutation (order 0 (rev bs)) bs) by (eapply perm_trans; [apply Ho|apply Permutation_sym, Permutation_rev]).
    assert (No : NoDup (map fst (order 0 (rev bs)))) by (eapply Permutation_NoDup; [apply Permutation_map, Permutation_sym, Pm|exact Nb]).
    rewrite (extend_fresh (order 0 (rev bs)) [] No), app_nil_r.
    assert (Pr : Permutation (rev (order 0 (rev bs))) bs) by (eapply perm_trans; [apply Permutation_sym, Permutation_rev|exact Pm]).
    exists (rev (order 0 (rev bs))). split; [reflexivity|]. split; [exact Pr|]. assert (Nr : NoDup (map fst (rev (order 0 (rev bs))))).
    { eapply Permutation_NoDup; [apply Permutation_map, Permutation_sym, Pr|exact Nb]. }
    split; [exact Nr|]. apply assoc_permuted; assumption.
  - unfold make_substitutions in E. unfold make_substitutions_hashed. destruct (resolve_items env empty_scope (spec_items spec)) as [sc| |]; cbn [bind] in *; try discriminate E; [|exact E].
    rewrite (items_hashed env sc order Ho), E. reflexivity.
  - unfold make_substitutions in E. unfold make_substitutions_hashed. destruct (resolve_items env empty_scope (spec_items spec)) as [sc| |]; cbn [bind] in *; try discriminate E; [|exact E].
    rewrite (items_hashed env sc order Ho), E. reflexivity.
Qed.

Lemma block_lookup reparse f g l : (forall x, f x = g x) -> visit_block O f reparse l = visit_block O g reparse l.
Proof.
  intros H. apply (block_same O f g reparse (or_intror H)). apply Forall_forall. intros p _. unfold part_same. apply everything_same, H.
Qed.
Lemma rewrite_hashed env t order rw : (forall n l, Permutation (order n l) l) -> NoDup (item_ids (spec_items (fst rw))) ->
  execute_block_rewrite_hashed O Y env t order rw = execute_block_rewrite O Y env t rw.
Proof.
  intros Ho Hn. unfold execute_block_rewrite_hashed, execute_block_rewrite. assert (H := make_hashed env order (fst rw) Ho Hn).
  destruct (make_substitutions O env (fst rw)) as [bs|e|p]; [|rewrite H; reflexivity..]. destruct H as (m & -> & _ & _ & E). cbn [bind]. unfold substitute.
  rewrite (block_lookup (reparse Y) _ _ (snd rw) E). reflexivity.
Qed.
Lemma rewrites_same env t order l : (forall r n m, Permutation (order r n m) m) -> Forall (fun rw => NoDup (item_ids (spec_items (fst rw)))) l ->
  forall r, rewrites_hashed O Y env t order r l = mapM (execute_block_rewrite O Y env t) l.
Proof.
  intros Ho. induction 1 as [|rw l Hn _ IH]; intros r; [reflexivity|]. cbn [rewrites_hashed mapM]. rewrite (rewrite_hashed env t (order r) rw (Ho r) Hn), IH. reflexivity.
Qed.
Lemma core_hashed order t u : (forall r n m, Permutation (order r n m) m) ->
  compose_core_hashed O Y order t (invocation_for O P u) = compose_core O Y t (invocation_for O P u).
Proof.
  intros Ho. unfold compose_core_hashed, compose_core. destruct (scoped _) as [t2| |]; try reflexivity. destruct (run_parser _ t2) as [t3| |]; try reflexivity.
  destruct (p_ast (inv_parsed (invocation_for O P u))) as [[ast|]| |] eqn:Ea; try reflexivity.
  unfold execute_hashed, execute. destruct (expand ast) as [rws| |] eqn:Ex; cbn [bind]; try reflexivity. rewrite (rewrites_same _ _ order rws Ho); [reflexivity|].
  apply Forall_forall. intros rw Hin. apply (source_rewrite O P _ _ _ _ ast rws rw Ea Ex Hin).
Qed.
Lemma uses_hashed order : (forall u r n m, Permutation (order u r n m) m) -> forall uses, expand_uses_hashed O P Y order uses = expand_uses O P Y uses.
Proof.
  intros Ho uses. unfold expand_uses_hashed, expand_uses. f_equal. generalize (@None service) 0. induction uses as [|u uses IH]; intros t k; [reflexivity|].
  cbn [map run_hashed Interpreter.run]. rewrite (core_hashed (order k) t u (Ho k)). destruct (compose_core O Y t _) as [t1 o]. rewrite IH. reflexivity.
Qed.
End Hashed.
