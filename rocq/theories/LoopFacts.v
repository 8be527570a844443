(** Expansion facts in the form used by the property theorems. *)
From Verif Require Import Base Token Types Values Ast Tuple Expand CrossProduct SpecProduct
  CrossProductProofs SpecTuple ExpandProofs.
From Coq Require Import Permutation.

(** The rewrite that a combination of loop values has to produce. *)
Definition is_rewrite_of {B} (ast : raw_ast B) (loops : list loop_item)
  (combo : list loop_source_value) (rw : block_rewrite B) : Prop :=
  snd rw = ast_block ast /\
  exists itemss,
    Forall2 (fun lv its => make_spec_items (loop_pattern (fst lv)) (snd lv) = Ok its)
      (combine loops combo) itemss /\
    spec_items (fst rw) =
      concat itemss ++ match ast_spec ast with Some sp => spec_items sp | None => [] end /\
    is_comma_used (fst rw) = match ast_spec ast with Some sp => is_comma_used sp | None => None end.

Lemma rewrite_for_spec {B} (ast : raw_ast B) loops combo rw :
  rewrite_for ast loops combo = Ok rw <-> is_rewrite_of ast loops combo rw.
Proof.
  unfold rewrite_for, is_rewrite_of. split.
  - intros H. destruct (loop_items loops combo) as [items| |] eqn:E; try discriminate H.
    cbn [bind] in H. injection H as <-. cbn [fst snd].
    apply loop_items_spec in E as (itemss & Hf & ->). split; [reflexivity|]. exists itemss.
    split; [exact Hf|]. destruct (ast_spec ast); cbn; rewrite ?app_nil_r; auto.
  - intros (Hb & itemss & Hf & Hi & Hc).
    assert (E : loop_items loops combo = Ok (concat itemss)) by (apply loop_items_spec; eauto).
    rewrite E. cbn [bind]. destruct rw as [[its cu] b]. cbn in *. subst.
    destruct (ast_spec ast) as [sp|]; cbn; rewrite ?app_nil_r; reflexivity.
Qed.

Lemma expand_iff {B} (ast : raw_ast B) loops rws :
  ast_loops ast = Some loops ->
  (expand ast = Ok rws <->
   Forall2 (is_rewrite_of ast loops) (all_combinations (map loop_values loops)) rws).
Proof.
  intros H. rewrite (expand_loops ast loops H), mapM_Ok.
  split; intros HF; induction HF as [|x y xs ys Hxy HF IH]; constructor; try exact IH;
    apply rewrite_for_spec; exact Hxy.
Qed.

Lemma expand_first_error {B} (ast : raw_ast B) loops :
  ast_loops ast = Some loops ->
  expand ast = mapM (rewrite_for ast loops) (all_combinations (map loop_values loops)).
Proof. apply expand_loops. Qed.

Lemma nested_empty {A} (ss : list (list A)) : In [] ss -> nested_loops ss = [].
Proof.
  intros H. apply length_zero_iff_nil. rewrite length_nested. apply cnt_existsb.
  apply existsb_exists. exists []. auto.
Qed.

Lemma expand_empty_list {B} (ast : raw_ast B) loops :
  ast_loops ast = Some loops -> In [] (map loop_values loops) -> expand ast = Ok [].
Proof.
  intros H Hin. rewrite (expand_loops ast loops H).
  replace (all_combinations (map loop_values loops)) with (@nil (list loop_source_value)); [reflexivity|].
  unfold all_combinations. destruct (map loop_values loops) eqn:E; [reflexivity|].
  rewrite nested_empty; [reflexivity|]. exact Hin.
Qed.

Lemma expand_no_loops {B} (ast : raw_ast B) :
  ast_loops ast = None ->
  exists spec, expand ast = Ok [(spec, ast_block ast)] /\
    spec_items spec = match ast_spec ast with Some sp => spec_items sp | None => [] end.
Proof.
  intros H. unfold expand. rewrite H. eexists. split; [reflexivity|].
  destruct (ast_spec ast); reflexivity.
Qed.

Lemma count_combinations {A} (ss : list (list A)) :
  ss <> [] -> length (all_combinations ss) = fold_right (fun l n => length l * n) 1 ss.
Proof. intros H. rewrite length_all, fold_cnt. destruct ss; congruence. Qed.

Lemma in_nested {A} (ss : list (list A)) c :
  In c (nested_loops ss) <-> Forall2 (fun x l => In x l) c ss.
Proof.
  revert c; induction ss as [|l ss IH]; intros c; cbn [nested_loops].
  - split; [intros [<-|[]]; constructor|]. intros H; inversion H; left; reflexivity.
  - rewrite in_flat_map. split.
    + intros (x & Hx & Hm). apply in_map_iff in Hm as (c' & <- & Hc). constructor; [exact Hx|].
      apply IH; exact Hc.
    + intros H. inversion H as [|x ? c' ? Hx Hc]; subst. exists x. split; [exact Hx|].
      apply in_map. apply IH; exact Hc.
Qed.

(** Nested-loop order: combinations sharing the first value are contiguous. *)
Lemma nested_loops_order {A} (l : list A) (ss : list (list A)) :
  nested_loops (l :: ss) = flat_map (fun x => map (cons x) (nested_loops ss)) l.
Proof. reflexivity. Qed.

Lemma reset_no_sources_wrong :
  exists c : cp nat, c = reset (from_vecs []) /\ size_hint c = (0%N, Some 0%N) /\
    exists c', next c = Ok (Some [], c').
Proof. eexists. split; [reflexivity|]. split; [reflexivity|]. eexists. reflexivity. Qed.

Lemma mismatched_shape_accepted :
  exists (a : tuple alias) (e : tuple expr) items,
    shape a <> shape e /\
    make_spec_items (LATuple a) (LSTuple e) = Ok items /\
    exists p q x v, leaf_at p a = Some x /\ In (x, v) items /\ leaf_at p e <> Some v /\ leaf_at q e = Some v.
Proof.
  (* for ((a), b) in [((1, 2))] *)
  exists [TVTuple [TVValue [97%N]]; TVValue [98%N]].
  exists [TVTuple [TVValue (EValue 1 (VLitInt [49%N] [49%N])); TVValue (EValue 2 (VLitInt [50%N] [50%N]))]].
  exists [([98%N], EValue 1 (VLitInt [49%N] [49%N])); ([97%N], EValue 2 (VLitInt [50%N] [50%N]))].
  split; [discriminate|]. split; [vm_compute; reflexivity|].
  exists [0; 0], [0; 1], [97%N], (EValue 2 (VLitInt [50%N] [50%N])).
  repeat split; [cbn; auto|discriminate].
Qed.
