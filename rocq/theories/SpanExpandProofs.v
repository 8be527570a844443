(** Expansion does not depend on spans. *)
From Coq Require Import String.
From Verif Require Import Base BaseFacts Token Types Values Ast Item Tuple CrossProduct Expand Interpreter Parse SpecRepro ExpandProofs Failures
  SpanTokens SpanWalker SpanValues SpanEval SpanItem SpanParse SpanExpand SpanMacro SpecSpans SpecSpanEval SpecSpanItem SpecSpanMacro SpanItemProofs SpanParseProofs.
Open Scope list_scope.

Lemma map_t_same {V W} (f : V -> W) t : map_t f t = map_tuple f t.
Proof. reflexivity. Qed.

Definition map_res {A B} (f : A -> B) (r : res A) : res B := match r with Ok a => Ok (f a) | Err e => Err e | Panic p => Panic p end.
Lemma recursive_map {V W} (f : V -> W) (t : tuple V) : iter_recursive (map_tuple f t) = map_res (map f) (iter_recursive t).
Proof. rewrite <- map_t_same, iter_recursive_map. destruct (iter_recursive t); reflexivity. Qed.
Lemma kinds_map {V W} (f : V -> W) fuel : forall q, bfs_kinds fuel (map_tuple f q) = map_res (map_tuple f) (bfs_kinds fuel q).
Proof.
  induction fuel as [|fuel IH]; intros [|t q]; try reflexivity. destruct t as [v|l]; cbn [map_tuple map map_tuple_value bfs_kinds].
  - change (map (map_tuple_value f) q) with (map_tuple f q). rewrite IH. destruct (bfs_kinds fuel q); reflexivity.
  - change (map (map_tuple_value f) q ++ map (map_tuple_value f) l) with (map (map_tuple_value f) q ++ map (map_tuple_value f) l).
    rewrite <- map_app. change (map (map_tuple_value f) (q ++ l)) with (map_tuple f (q ++ l)). rewrite IH. destruct (bfs_kinds fuel (q ++ l)); reflexivity.
Qed.
Lemma destructuring_map {V W} (f : V -> W) (t : tuple V) : iter_destructuring (map_tuple f t) = map_res (map_tuple f) (iter_destructuring t).
Proof. unfold iter_destructuring. rewrite kinds_map. f_equal. f_equal. rewrite <- map_t_same. apply tuple_size_map. Qed.
Lemma kinds_match_map {V W X} (f : W -> X) (a : list (tuple_value V)) : forall b : list (tuple_value W), kinds_match a (map_tuple f b) = kinds_match a b.
Proof. induction a as [|[v|l] a IH]; intros [|[w|m] b]; try reflexivity; cbn; apply IH. Qed.

(** The iterators fail only by panicking. *)
Definition unfailing {A} (r : res A) : Prop := match r with Err _ => False | _ => True end.
Lemma forget_lift {A B} (f : A -> B) r : unfailing r -> forget f (slift r) = map_res f r.
Proof. destruct r; [reflexivity|contradiction|reflexivity]. Qed.
Lemma recursive_unfailing {V} (t : tuple V) : unfailing (iter_recursive t).
Proof. destruct (bfs_values_ok (tuple_size t) t (le_n _)) as (l & E). unfold iter_recursive. rewrite E. exact I. Qed.
Lemma destructuring_unfailing {V} (t : tuple V) : unfailing (iter_destructuring t).
Proof. destruct (bfs_kinds_ok (tuple_size t) t (le_n _)) as (l & E). unfold iter_destructuring. rewrite E. exact I. Qed.
Lemma next_unfailing {A} (c : cp A) : unfailing (next c).
Proof. unfold next. destruct (is_exhausted c); [exact I|]. destruct (current_combination c); [|exact I]. destruct (advance_indices c) as [[]|]; exact I. Qed.

Definition map_cp {A B} (f : A -> B) (c : cp A) : cp B :=
  {| sources := map (map f) (sources c); indices := indices c; is_exhausted := is_exhausted c |}.
Lemma combination_map {A B} (f : A -> B) is : forall ss, combination is (map (map f) ss) = option_map (map f) (combination is ss).
Proof.
  induction is as [|i is IH]; intros [|s ss]; try reflexivity. cbn. rewrite IH, nth_error_map. destruct (nth_error s i); [|reflexivity].
  cbn. destruct (combination is ss); reflexivity.
Qed.
Lemma advance_rev_map {A B} (f : A -> B) is : forall ss, advance_rev is (map (map f) ss) = advance_rev is ss.
Proof. induction is as [|i is IH]; intros [|s ss]; try reflexivity. cbn [map advance_rev]. rewrite map_length, IH. reflexivity. Qed.
Lemma next_map {A B} (f : A -> B) c : next (map_cp f c) = map_res (fun '(o, c') => (option_map (map f) o, map_cp f c')) (next c).
Proof.
  unfold next. cbn [map_cp is_exhausted]. destruct (is_exhausted c); [reflexivity|]. unfold current_combination, advance_indices. cbn [map_cp indices sources].
  rewrite combination_map, firstn_map, <- map_rev, advance_rev_map. destruct (combination _ _); [|reflexivity]. cbn [option_map].
  destruct (indices c); [reflexivity|]. destruct (advance_rev _ _) as [[b is']|]; reflexivity.
Qed.
Lemma from_vecs_map {A B} (f : A -> B) ss : from_vecs (map (map f) ss) = map_cp f (from_vecs ss).
Proof.
  unfold from_vecs, map_cp. cbn [sources indices is_exhausted]. rewrite map_length. f_equal. f_equal; [destruct ss; reflexivity|].
  induction ss as [|s ss IH]; [reflexivity|]. cbn. rewrite IH. f_equal. destruct s; reflexivity.
Qed.

Section Expand.
Context (SO : soracles).

Lemma match_erase a s t : forget (fun x => x) (smatch_tuples a s t) = match_tuples a (map_tuple erase_expr t).
Proof.
  unfold smatch_tuples, match_tuples. apply (fbind (fun x => x)); [rewrite forget_lift by apply destructuring_unfailing; destruct (iter_destructuring a); reflexivity|]. intros aks _.
  apply (fbind (map_tuple erase_expr)); [rewrite forget_lift by apply destructuring_unfailing; symmetry; apply destructuring_map|]. intros eks _.
  unfold map_tuple at 1. rewrite map_length, kinds_match_map. destruct (Nat.eqb _ _); [|reflexivity]. destruct (kinds_match _ _); reflexivity.
Qed.
Lemma spec_items_erase al sv : forget erase_spec (smake_spec_items SO al sv) = make_spec_items al (plain_source sv).
Proof.
  destruct al as [a|a], sv as [e|s t]; try reflexivity. cbn [smake_spec_items make_spec_items plain_source].
  apply (fbind (fun x => x)); [apply match_erase|]. intros [] _.
  apply (fbind (fun x => x)); [rewrite forget_lift by apply recursive_unfailing; destruct (iter_recursive a); reflexivity|]. intros aliases _.
  apply (fbind (map erase_expr)); [rewrite forget_lift by apply recursive_unfailing; symmetry; apply recursive_map|]. intros es _.
  cbn. f_equal. unfold erase_spec. revert es. induction aliases as [|x l IH]; intros [|y es]; try reflexivity. cbn. rewrite IH. reflexivity.
Qed.
Lemma loop_items_erase loops : forall vals, forget erase_spec (sloop_items SO loops vals) = loop_items (map plain_loop loops) (map plain_source vals).
Proof.
  induction loops as [|l loops IH]; intros [|v vals]; try reflexivity. cbn [map loop_items sloop_items].
  apply (fbind erase_spec); [apply spec_items_erase|]. intros items _. apply (fbind erase_spec); [apply IH|]. intros rest _. cbn. unfold erase_spec. rewrite map_app. reflexivity.
Qed.

Context {B C : Type} (f : B -> C).
Definition plain_rewrite (rw : salias_spec * B) : block_rewrite C := (plain_spec (fst rw), f (snd rw)).
Lemma rewrite_erase ast loops vals : forget plain_rewrite (srewrite_for SO ast loops vals) =
  rewrite_for (plain_ast f ast) (map plain_loop loops) (map plain_source vals).
Proof.
  unfold srewrite_for, rewrite_for. apply (fbind erase_spec); [apply loop_items_erase|]. intros items _. cbn. unfold plain_rewrite. cbn [fst snd].
  destruct (sa_spec ast); [|reflexivity]. cbn. unfold plain_spec, erase_spec. cbn. rewrite map_app. reflexivity.
Qed.
Lemma expand_loop_erase fuel : forall ast loops it, forget (map plain_rewrite) (sexpand_loop SO fuel ast loops it) =
  expand_loop fuel (plain_ast f ast) (map plain_loop loops) (map_cp plain_source it).
Proof.
  induction fuel as [|fuel IH]; intros ast loops it; [reflexivity|]. cbn [sexpand_loop expand_loop]. rewrite next_map.
  assert (Hn := next_unfailing it). destruct (next it) as [[o it']|e|p]; [|contradiction|reflexivity]. cbn [slift sbind map_res bind].
  destruct o as [vals|]; [|reflexivity]. cbn [option_map].
  apply (fbind plain_rewrite); [apply rewrite_erase|]. intros rw _. apply (fbind (map plain_rewrite)); [apply IH|]. reflexivity.
Qed.
Lemma expand_erase ast : forget (map plain_rewrite) (sexpand SO ast) = expand (plain_ast f ast).
Proof.
  unfold sexpand, expand. cbn [plain_ast ast_loops]. destruct (sa_loops ast) as [loops|]; cbn [option_map].
  - replace (map loop_values (map plain_loop loops)) with (map (map plain_source) (map sl_values loops)) by (rewrite !map_map; reflexivity).
    rewrite from_vecs_map.
    replace (fold_right (fun (v : list loop_source_value) n => List.length v * n) 1 (map (map plain_source) (map sl_values loops)))
      with (fold_right (fun (v : list ssource_value) n => List.length v * n) 1 (map sl_values loops)).
    + apply expand_loop_erase.
    + induction (map sl_values loops) as [|v l IH]; [reflexivity|]. cbn. rewrite map_length, IH. reflexivity.
  - cbn. unfold plain_rewrite. cbn. destruct (sa_spec ast); reflexivity.
Qed.
End Expand.
