(** Witnesses and examples about invocations and warnings. *)
From Coq Require Import String Sorting.Sorted.
From Verif Require Import Base Token Types Values Ast Env Eval Expand SpecProduct Item AliasSubstitution
  Deprecation Interpreter SpecDeprecation DeprecationProofs SpecInterpreter InterpreterProofs SpecSubst Concrete ConcreteSpecs ConcreteRuns.
Open Scope list_scope.

Lemma leading_attrs_tokens ts : let (a, r) := leading_attrs ts in attrs_tokens a ++ r = ts.
Proof.
  remember (length ts) as n eqn:Hn. revert ts Hn. induction n as [n IH] using lt_wf_ind. intros ts Hn.
  destruct ts as [|[x|c [|]|l|d l] ts]; try reflexivity.
  destruct ts as [|[x|c' j'|l|[| | |] l] ts]; try reflexivity.
  cbn [leading_attrs]. destruct (N.eqb c 35) eqn:E; [|reflexivity].
  apply N.eqb_eq in E. subst c. specialize (IH (length ts) ltac:(cbn in Hn; lia) ts eq_refl).
  destruct (leading_attrs ts) as [a r]. cbn. f_equal. f_equal. exact IH.
Qed.
Lemma syntax0_covers : covers syntax0.
Proof.
  intros [|t ts]; [reflexivity|]. unfold syntax0, as_forest, one_item.
  pose proof (leading_attrs_tokens (t :: ts)) as H. destruct (leading_attrs (t :: ts)) as [a r].
  unfold forest_tokens. cbn [flat_map tree_tokens]. rewrite app_nil_r, <- H. f_equal.
  clear H. induction r as [|x r IH]; [reflexivity|]. cbn. congruence.
Qed.

(** The warnings are handed out in order until they or the nodes run out. *)
Lemma annotated_until p ws l l' : annotated p ws l l' ->
  exists k, added l l' = map (deprecation p) (firstn k ws) /\ (length ws <= k \/ Forall is_deprecated l').
Proof.
  induction 1 as [ws|l|ws n l l' Hd H (k & H1 & H2)|w ws n l l' Hd H (k & H1 & H2)].
  - exists 0. split; [reflexivity|]. right. constructor.
  - exists 0. split; [apply added_same|]. left. cbn. lia.
  - exists k. split; [|destruct H2 as [H2|H2]; [left; auto|right; constructor; auto]].
    unfold added in *. cbn [combine flat_map fst snd]. rewrite skipn_all. exact H1.
  - exists (S k). split; [|destruct H2 as [H2|H2]; [left; cbn; lia|right; constructor; auto; apply deprecation_is_deprecated]].
    unfold added in *. cbn [combine flat_map fst snd firstn map]. rewrite skipn_app, skipn_all, Nat.sub_diag. cbn [app skipn]. f_equal. exact H1.
Qed.
Lemma emit_until s f : exists k,
  flat_map (fun nn => skipn (length (fst (fst nn))) (fst (snd nn))) (combine (nodes f) (nodes (emit s f))) =
    map (deprecation (s_prefix s)) (firstn k (warnings s)) /\
  (length (warnings s) <= k \/ Forall is_deprecated (nodes (emit s f))).
Proof. apply (annotated_until (s_prefix s)). apply emit_spec. Qed.

Lemma emit_each s f :
  Forall2 (fun n n' => n' = n \/
     (~ is_deprecated n /\ exists w, In w (warnings s) /\ n' = (fst n ++ [deprecation (s_prefix s) w], snd n)))
    (nodes f) (nodes (emit s f)).
Proof. apply annotated_each. apply emit_spec. Qed.

(** Inserting any warnings in any order. *)
Lemma warnings_sorted ws s : s = fold_left (fun s w => add_warning w s) ws (new_service []) ->
  NoDup (warnings s) /\ forall w, In w (warnings s) <-> In w ws.
Proof.
  intros ->.
  assert (H : forall ws s, StronglySorted warning_lt (warnings s) ->
    StronglySorted warning_lt (warnings (fold_left (fun s w => add_warning w s) ws s)) /\
    forall w, In w (warnings (fold_left (fun s w => add_warning w s) ws s)) <-> In w ws \/ In w (warnings s)).
  { clear. induction ws as [|w ws IH]; intros s Hs; cbn [fold_left]; [split; [auto|cbn; tauto]|].
    destruct (IH (add_warning w s)) as [H1 H2]; [cbn; apply insert_sorted; auto|]. split; [exact H1|].
    intros v. rewrite H2. cbn [add_warning warnings In]. rewrite insert_in. intuition congruence. }
  destruct (H ws (new_service [])) as [H1 H2]; [constructor|]. split; [apply sorted_nodup; exact H1|].
  intros w. rewrite H2. cbn. tauto.
Qed.

Lemma compare_dictionary a : forall b, str_compare a b = Lt -> dictionary a b.
Proof.
  induction a as [|x a IH]; intros [|y b] H; cbn in H; try discriminate.
  - left. exists y, b. reflexivity.
  - destruct (N.compare x y) eqn:E; [|right; exists [], x, y, a, b; apply N.compare_lt_iff in E; auto|discriminate].
    apply N.compare_eq_iff in E. subst y. destruct (IH b H) as [(y & t & ->)|(p & u & v & r & t & -> & -> & Huv)].
    + left. exists y, t. reflexivity.
    + right. exists (x :: p), u, v, r, t. auto.
Qed.
Lemma compare_earlier a b : warning_lt a b -> earlier a b.
Proof.
  unfold warning_lt, warning_compare, earlier. destruct (str_compare (note a) (note b)) eqn:E; [|intros _; left; apply compare_dictionary; exact E|discriminate].
  apply str_compare_eq in E. intros H. right. split; [exact E|]. apply compare_dictionary. exact H.
Qed.
Lemma warnings_earlier ws s : s = fold_left (fun s w => add_warning w s) ws (new_service []) -> StronglySorted earlier (warnings s).
Proof.
  intros ->. assert (H : forall ws s, StronglySorted warning_lt (warnings s) -> StronglySorted warning_lt (warnings (fold_left (fun s w => add_warning w s) ws s))).
  { clear. induction ws as [|w ws IH]; intros s Hs; cbn [fold_left]; [exact Hs|]. apply IH. apply insert_sorted, Hs. }
  induction (H ws (new_service []) (SSorted_nil _)) as [|w l _ IH Hl]; constructor; [exact IH|].
  eapply Forall_impl; [|exact Hl]. intros v. apply compare_earlier.
Qed.

Lemma prefix_sticks : exists hist inv ts,
  inv_prefix inv = txt "compose!: " /\
  snd (compose_core ascii syntax0 (fst (run ascii syntax0 None hist)) inv) = Code ts /\
  In (TLit (LStr (semicolon_note "compose_item!: ") [])) (leaves ts) /\
  ~ In (TLit (LStr (semicolon_note "compose!: ") [])) (leaves ts).
Proof.
  exists [call_macro "compose_item!: " false (fn_ast [(txt "name", id_ 1 "f")])],
    (call_macro "compose!: " true (fn_ast [(txt "name", id_ 1 "g")])).
  eexists. split; [reflexivity|]. split; [vm_compute; reflexivity|]. split.
  - vm_compute. tauto.
  - intros H. vm_compute in H. repeat (destruct H as [H|H]; [discriminate H|]). exact H.
Qed.

Lemma same_prefix O Y hist inv ts :
  Forall (fun i => inv_prefix i = inv_prefix inv) hist ->
  snd (compose_core O Y (fst (run O Y None hist)) inv) = Code ts ->
  exists blocks, blocks_of O Y inv blocks /\
    ts = concat (map (fun b => forest_tokens (emit {| warnings := raised inv; borrowed := 1; s_prefix := inv_prefix inv |}
                                                   (as_forest Y (block_tokens b)))) blocks).
Proof.
  intros Hh H. destruct (code_after_any_history O Y hist inv _ ts eq_refl H) as (p & bs & Hb & -> & ->).
  exists bs. split; auto. destruct hist as [|i r]; [reflexivity|]. cbn [hd]. inversion Hh as [|? ? Hi _]; subst. rewrite Hi. reflexivity.
Qed.

(** The error reported is not always that of the first combination that fails. *)
Definition late_error : raw_ast (list stmt) :=
  loops_over [LASimple (txt "a")] [[LSValue (id_ 1 "x"); LSTuple [TVValue (id_ 2 "y")]]]
    (Some (spec_of [(txt "a", id_ 3 "z")])) [].
Lemma later_error_first :
  execute ascii syntax0 env0 None late_error = Err TypeError /\
  execute ascii syntax0 env0 None
    (one_round [LASimple (txt "a")] [LSValue (id_ 1 "x")] (Some (spec_of [(txt "a", id_ 3 "z")])) []) = Err (RedefinedNameError (txt "a")).
Proof. split; vm_compute; reflexivity. Qed.
Lemma later_error_wins : exists ast first later e1 e2,
  ast = loops_over [LASimple (txt "a")] [[first; later]] (Some (spec_of [(txt "a", id_ 3 "z")])) [] /\
  execute ascii syntax0 env0 None (one_round [LASimple (txt "a")] [first] (Some (spec_of [(txt "a", id_ 3 "z")])) []) = Err e1 /\
  execute ascii syntax0 env0 None ast = Err e2 /\ e1 <> e2.
Proof.
  exists late_error, (LSValue (id_ 1 "x")), (LSTuple [TVValue (id_ 2 "y")]), (RedefinedNameError (txt "a")), TypeError.
  split; [reflexivity|]. split; [exact (proj2 later_error_first)|]. split; [exact (proj1 later_error_first)|discriminate].
Qed.
