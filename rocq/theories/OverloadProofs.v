(** Overloads that no call can take have no effect. *)
From Coq Require Import String.
From Verif Require Import Base BaseFacts Token Types Values Ast Env Item Expand Resolve Eval Deprecation Interpreter Parse Macro UniqueId
  SpecProduct SpecTuple SpecElab SpecPrograms SpecParse SpecDeprecation SpecMacro SpecRepro Threads SpecExtend SpecOverload
  ElabFacts ElabProofs ResolveFacts MacroProofs InterpreterProofs ParseIds ReproProofs ExtendParse ExtendProofs.
Open Scope list_scope.

(** ** The first of the best *)
Definition worth (a b : entry) : bool :=
  let '(c1, f1, _) := a in let '(c2, f2, _) := b in
  (c1 <? c2)%N || ((c1 =? c2)%N && ((negb (is_variadic f1) && is_variadic f2) || (Bool.eqb (is_variadic f1) (is_variadic f2) && (num_args f1 <? num_args f2)))).
Definition above (n : N) (l : list entry) : Prop := Forall (fun x => (n <= f_id (snd (fst x)))%N) l.
Inductive rising : list entry -> Prop :=
| rising_nil : rising []
| rising_cons x l : above (N.succ (f_id (snd (fst x)))) l -> rising l -> rising (x :: l).
Lemma rising_best l : rising l -> best l = leftmost worth l.
Proof.
  induction 1 as [|x l Ha Hl IH]; [reflexivity|]. cbn [best leftmost]. rewrite <- IH. destruct (best l) as [y|] eqn:E; [|reflexivity].
  apply best_in in E. unfold above in Ha. rewrite Forall_forall in Ha. specialize (Ha y E). destruct x as [[c f] t], y as [[c1 f1] t1]. cbn [fst snd] in *.
  assert (G : betterb (c1, f1) (c, f) = worth (c1, f1, t1) (c, f, t)).
  { unfold betterb, worth. replace (f_id f1 <? f_id f)%N with false by (symmetry; apply N.ltb_ge; lia). rewrite andb_false_r, orb_false_r. reflexivity. }
  rewrite G. reflexivity.
Qed.
Lemma viable_above x vs args raw ex : forall k, above k (viable (number_variants x k vs) args raw ex) /\ rising (viable (number_variants x k vs) args raw ex).
Proof.
  induction vs as [|[[a o] im] vs IH]; intros k; cbn [number_variants viable]; [split; constructor|]. destruct (IH (N.succ k)) as (Ha & Hr).
  destruct (elab_func _ args raw ex) as [[c tes]|].
  - split; [|constructor; [exact Ha|exact Hr]]. constructor; [cbn; lia|]. eapply Forall_impl; [|exact Ha]. cbn beta. intros y. lia.
  - split; [|exact Hr]. eapply Forall_impl; [|exact Ha]. cbn beta. intros y. lia.
Qed.
Lemma worth_rel a a' b b' : entry_rel same_func eq a b -> entry_rel same_func eq a' b' -> worth a a' = worth b b'.
Proof.
  destruct a as [[c f] t], a' as [[c1 f1] t1], b as [[c2 f2] t2], b' as [[c3 f3] t3].
  intros (-> & (Ea & _) & _) (-> & (Ea1 & _) & _). unfold worth, is_variadic, num_args. rewrite Ea, Ea1. reflexivity.
Qed.

(** ** Refused overloads *)
Lemma refused x k o args raw ex : takes o (List.length args) = false ->
  elab_func {| f_id := k; f_name := x; f_arg_types := fst (fst o); f_out_type := snd (fst o); f_impl := snd o |} args raw ex = None.
Proof.
  destruct o as [[a t] im]. cbn [fst snd]. unfold takes, elab_func. cbn [fst f_out_type f_arg_types]. intros H.
  set (f := {| f_id := k; f_name := x; f_arg_types := a; f_out_type := t; f_impl := im |}).
  assert (G : a <> [TyRaw] -> params f (List.length args) = None).
  { intros Hr. unfold params, variadic_arg_type, num_args. cbn [f f_arg_types].
    assert (H' : (if existsb is_variadic_ty a then Nat.leb (List.length a) (List.length args) else Nat.eqb (List.length a) (List.length args)) = false).
    { destruct a as [|[] [|? ?]]; try exact H. congruence. }
    clear H. rename H' into H. destruct (existsb is_variadic_ty a) eqn:E.
    - destruct (find is_variadic_ty a) as [v|] eqn:F.
      + apply find_some in F as (_ & F). destruct v; try discriminate F. rewrite H. reflexivity.
      + exfalso. apply existsb_exists in E as (v & Hi & Hv). rewrite (find_none _ _ F v Hi) in Hv. discriminate.
    - destruct (find is_variadic_ty a) as [v|] eqn:F.
      + apply find_some in F as (Hi & F). exfalso. assert (existsb is_variadic_ty a = true) by (apply existsb_exists; eauto). congruence.
      + rewrite H. reflexivity. }
  destruct (match ex with Some t0 => _ | None => _ end) as [c0|]; [|reflexivity].
  assert (Hr : a <> [TyRaw]) by (intros ->; discriminate H).
  destruct a as [|[] [|? ?]]; try (rewrite (G Hr); reflexivity). congruence.
Qed.

Section Environments.
Context (env env' : environment) (named : str -> bool) (useless : str -> overload -> Prop).
Hypothesis same : forall x, named x = true -> exists n n',
  (get_func_variants env x = None /\ get_func_variants env' x = None) \/
  exists vs vs', interspersed (useless x) vs vs' /\
    get_func_variants env x = Some (number_variants x n vs) /\ get_func_variants env' x = Some (number_variants x n' vs').
Hypothesis seeds : e_seed env = e_seed env'.
(** The calls are named and take no useless overload. *)
Inductive apart : expr -> Prop :=
| apart_value id v : apart (EValue id v)
| apart_call id x args raw : named x = true -> (forall o, useless x o -> takes o (List.length args) = false) -> Forall apart args -> apart (ECall id x args raw).

Lemma viable_apart x vs vs' args args' raw ex : interspersed (useless x) vs vs' -> Forall2 (erel same_func eq) args args' ->
  (forall o, useless x o -> takes o (List.length args') = false) -> forall n n',
  Forall2 (entry_rel same_func eq) (viable (number_variants x n vs) args raw ex) (viable (number_variants x n' vs') args' raw ex).
Proof.
  intros Hi Ha Hu. assert (Hr : rawrel eq raw raw) by (destruct raw; cbn; auto). induction Hi as [|[[a o] im] vs vs' Hi IH|[[a o] im] vs vs' Ho Hi IH]; intros n n'; cbn [number_variants viable].
  - constructor.
  - set (f := {| f_id := n; f_name := x; f_arg_types := a; f_out_type := o; f_impl := im |}).
    set (f' := {| f_id := n'; f_name := x; f_arg_types := a; f_out_type := o; f_impl := im |}).
    assert (Hf : same_func f f') by (repeat split).
    pose proof (elab_func_rel same_func eq same_sig f f' args args' raw raw ex Hf Ha Hr) as H.
    destruct (elab_func f args raw ex) as [[c tes]|], (elab_func f' args' raw ex) as [[c' tes']|]; try contradiction; [|apply IH].
    destruct H as [-> H]. constructor; [cbn; auto|apply IH].
  - pose proof (refused x n' (a, o, im) args' raw ex (Hu _ Ho)) as E. cbn [fst snd] in E. rewrite E. apply IH.
Qed.
Lemma elab_apart G e : apart e -> erel same_func eq (elab env G e) (elab env' G e).
Proof.
  induction e as [id v|id name args raw IH] using expr_ind'; intros Hk ex; cbn [elab].
  - destruct (coercion_cost _ _); [|exact eq_refl]. cbn. split; [constructor; reflexivity|reflexivity].
  - inversion Hk as [|? ? ? ? Hn Hu Hargs]; subst. assert (Ha : Forall2 (erel same_func eq) (map (elab env G) args) (map (elab env' G) args)).
    { clear - IH Hargs. induction IH as [|a args Ha _ IHa]; inversion Hargs; subst; cbn [map]; constructor; auto. }
    destruct (same name Hn) as (n & n' & [(-> & ->)|(vs & vs' & Hi & -> & ->)]); [exact eq_refl|].
    assert (Hv : Forall2 (entry_rel same_func eq) (viable (number_variants name n vs) (map (elab env G) args) (option_map snd raw) ex)
                   (viable (number_variants name n' vs') (map (elab env' G) args) (option_map snd raw) ex)).
    { apply viable_apart; [exact Hi|exact Ha|]. intros o Ho. rewrite map_length. apply Hu, Ho. }
    pose proof (leftmost_rel _ worth worth _ _ worth_rel Hv) as Hb.
    rewrite (rising_best (viable (number_variants name n vs) _ _ _)) by apply viable_above.
    rewrite (rising_best (viable (number_variants name n' vs') _ _ _)) by apply viable_above.
    destruct (leftmost worth (viable (number_variants name n vs) _ _ ex)) as [[[c f] tes]|], (leftmost worth (viable (number_variants name n' vs') _ _ ex)) as [[[c' f'] tes']|];
      try contradiction; [|exact eq_refl].
    destruct Hb as (-> & Hf & Ht). cbn. rewrite (proj2 (same_sig _ _ Hf)). split; [constructor; assumption|reflexivity].
Qed.
Lemma elab_items_apart items : forall G, Forall apart (map snd items) ->
  match elab_items env G items, elab_items env' G items with
  | Ok tis, Ok tis' => Forall2 (fun a b => fst a = fst b /\ trel same_func eq (snd a) (snd b)) tis tis'
  | Err e, Err e' => e = e'
  | _, _ => False
  end.
Proof.
  induction items as [|[n e] items IH]; intros G H; [constructor|]. inversion H as [|? ? He Hi]; subst. cbn [elab_items].
  pose proof (elab_apart G e He None) as Hr. unfold orel in Hr.
  destruct (elab env G e None) as [[te c]|er], (elab env' G e None) as [[te' c']|er']; try contradiction; [|exact Hr].
  destruct Hr as [Ht ->]. destruct (assoc_str n G); [reflexivity|]. rewrite <- (trel_target _ _ _ _ Ht).
  specialize (IH ((n, target_of te) :: G) Hi).
  destruct (elab_items env _ items), (elab_items env' _ items); try contradiction; cbn [bind]; [|exact IH].
  constructor; [|exact IH]. auto.
Qed.
Lemma bindings_apart O items : Forall apart (map snd items) -> bindings O env items = bindings O env' items.
Proof.
  intros H. unfold bindings. pose proof (elab_items_apart items [] H) as Hr.
  destruct (elab_items env [] items), (elab_items env' [] items); try contradiction; cbn [bind]; [|congruence].
  rewrite <- seeds. apply (trel_run_items O _ same_func); auto.
Qed.
Lemma execute_apart O Y t (ast : raw_ast (list stmt)) : NoDup (flat_map ids (ast_exprs ast)) -> Forall apart (ast_exprs ast) ->
  execute O Y env t ast = execute O Y env' t ast.
Proof.
  intros Hd Hk. unfold execute. destruct (expand ast) as [rws| |] eqn:Hx; try reflexivity. cbn [bind].
  assert (E : mapM (execute_block_rewrite O Y env t) rws = mapM (execute_block_rewrite O Y env' t) rws); [|rewrite E; reflexivity].
  assert (H : forall rw, In rw rws -> execute_block_rewrite O Y env t rw = execute_block_rewrite O Y env' t rw).
  { intros rw Hin. pose proof (expand_part _ _ _ Hx Hin) as Hp. unfold execute_block_rewrite.
    assert (Hn : NoDup (item_ids (spec_items (fst rw)))) by (rewrite item_ids_exprs; eapply part_NoDup; [apply part_flat_map; exact Hp|exact Hd]).
    rewrite !make_substitutions_spec by exact Hn. rewrite (bindings_apart O); [reflexivity|]. eapply part_Forall; [exact Hp|exact Hk]. }
  clear -H. induction rws as [|rw rws IH]; [reflexivity|]. cbn [mapM]. rewrite (H rw) by (left; reflexivity).
  rewrite IH by (intros rw' Hi; apply H; right; exact Hi). reflexivity.
Qed.
End Environments.

Lemma interspersed_impl (U V : overload -> Prop) vs vs' : (forall o, U o -> V o) -> interspersed U vs vs' -> interspersed V vs vs'.
Proof. intros H. induction 1; constructor; auto. Qed.
Lemma known_apart named (useless : str -> overload -> Prop) e : calls_known named e -> (forall x o n, useless x o -> In n (arities x e) -> takes o n = false) -> apart named useless e.
Proof.
  induction e as [id v|id name args raw IH] using expr_ind'; intros Hk Hu; [constructor|]. inversion Hk as [|? ? ? ? Hn Hargs]; subst. constructor; [exact Hn| |].
  - intros o Ho. apply (Hu name o); [exact Ho|]. cbn [arities]. rewrite str_eqb_refl. left. reflexivity.
  - assert (Hu' : forall a, In a args -> forall x o n, useless x o -> In n (arities x a) -> takes o n = false).
    { intros a Ha x o n Ho Hn'. apply (Hu x o n Ho). cbn [arities]. apply in_or_app. right. apply in_flat_map. eauto. }
    clear Hu Hk. induction IH as [|a args Ha _ IHa]; constructor; inversion Hargs; subst.
    + apply Ha; [assumption|]. apply Hu'. left. reflexivity.
    + apply IHa; [assumption|]. intros b Hb. apply Hu'. right. exact Hb.
Qed.

Section Uses.
Context (O : oracles) (P : parsers) (Y : syntax).
Lemma core_overloads rows rows' u t : same_but_for_overloads P rows rows' u ->
  compose_core_in O Y (table_environment rows (u_seed u) (u_first_id u)) (prefix_of (u_source u)) (parse_source P rows (u_next_id u) (u_source u)) t =
  compose_core_in O Y (table_environment rows' (u_seed u) (u_first_id u)) (prefix_of (u_source u)) (parse_source P rows' (u_next_id u) (u_source u)) t.
Proof.
  intros H. assert (E : parse_source P rows (u_next_id u) (u_source u) = parse_source P rows' (u_next_id u) (u_source u)).
  { rewrite !parse_source_knowing. apply parse_agree. intros x Hx. unfold table_knows. specialize (H x Hx).
    destruct (assoc_str x rows), (assoc_str x rows'); try contradiction; reflexivity. }
  rewrite <- E. unfold compose_core_in. destruct (scoped _) as [t2| |]; [|reflexivity|reflexivity]. destruct (run_parser _ t2) as [t3| |]; [|reflexivity|reflexivity].
  destruct (p_ast (parse_source P rows (u_next_id u) (u_source u))) as [[ast|]| |] eqn:Ep; try reflexivity.
  unfold same_but_for_overloads in H. rewrite Ep in H.
  rewrite parse_source_knowing in Ep. apply parsed_named in Ep as (Hd & Hk).
  rewrite (execute_apart (table_environment rows (u_seed u) (u_first_id u)) (table_environment rows' (u_seed u) (u_first_id u)) (names (u_source u)) (fun x => never_taken x ast)); [reflexivity| |reflexivity|exact Hd|].
  - intros x Hx. apply names_in in Hx. unfold get_func_variants, table_environment. cbn [e_funcs]. specialize (H x Hx).
    destruct (rows_variants rows x (u_first_id u)) as (n & Hn), (rows_variants rows' x (u_first_id u)) as (n' & Hn').
    exists n, n'. rewrite Hn, Hn'. destruct (assoc_str x rows) as [vs|], (assoc_str x rows') as [vs'|]; try contradiction; [|left; split; reflexivity].
    right. exists vs, vs'. split; [|split; reflexivity]. eapply interspersed_impl; [|exact H]. intros o Ho. apply Ho. reflexivity.
  - rewrite Forall_forall in *. intros e He. apply known_apart; [apply Hk, He|]. intros x o n Ho Hi. exact (Ho e n He Hi).
Qed.
Theorem useless_overloads rows rows' uses : Forall (same_but_for_overloads P rows rows') uses -> forall t, run_with O P Y rows t uses = run_with O P Y rows' t uses.
Proof.
  induction 1 as [|u uses Hu _ IH]; intros t; [reflexivity|]. cbn [run_with]. rewrite (core_overloads rows rows' u t Hu). destruct (compose_core_in _ _ _ _ _ t) as [t1 o]. rewrite IH. reflexivity.
Qed.
Lemma interspersed_refl U vs : interspersed U vs vs.
Proof. induction vs; constructor; assumption. Qed.
Lemma same_functions_overloads rows rows' u : same_functions rows rows' u -> same_but_for_overloads P rows rows' u.
Proof. intros H x Hx. rewrite (H x Hx). destruct (assoc_str x rows'); [apply interspersed_refl|exact I]. Qed.
End Uses.
