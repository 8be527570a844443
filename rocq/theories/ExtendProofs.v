(** Functions that a use does not name have no effect on it. *)
From Coq Require Import String.
From Verif Require Import Base BaseFacts Token Types Values Ast Env Item Expand Resolve Eval Deprecation Interpreter Parse Macro UniqueId
  SpecProduct SpecTuple SpecElab SpecPrograms SpecParse SpecDeprecation SpecMacro SpecRepro Threads SpecExtend
  ElabFacts ElabProofs ResolveFacts MacroProofs InterpreterProofs ParseIds ReproProofs ExtendParse.
Open Scope list_scope.

(** ** Overloads in a table *)
Lemma rows_variants rows x : forall k, exists n, assoc_str x (number_rows k rows) = option_map (number_variants x n) (assoc_str x rows).
Proof.
  induction rows as [|[y vs] rows IH]; intros k; [exists 0%N; reflexivity|]. cbn [number_rows assoc_str]. destruct (str_eqb x y) eqn:E; [|apply IH].
  apply str_eqb_eq in E as ->. exists k. reflexivity.
Qed.

Section Environments.
Context (env env' : environment) (named : str -> bool).
(** The same overloads under the names that count, with ids at the same distances. *)
Hypothesis same : forall x, named x = true -> exists vs n n',
  get_func_variants env x = option_map (number_variants x n) vs /\ get_func_variants env' x = option_map (number_variants x n') vs.
Hypothesis seeds : e_seed env = e_seed env'.

Definition shifted (n n' : N) (a b : entry) : Prop :=
  entry_rel same_func eq a b /\ (f_id (snd (fst a)) + n' = f_id (snd (fst b)) + n)%N.
Lemma same_sig f f' : same_func f f' -> f_arg_types f = f_arg_types f' /\ f_out_type f = f_out_type f'.
Proof. intros (A & B & _). split; assumption. Qed.
Lemma viable_shifted x vs args args' raw ex : Forall2 (erel same_func eq) args args' -> forall n n' m m', (m + n' = m' + n)%N ->
  Forall2 (shifted n n') (viable (number_variants x m vs) args raw ex) (viable (number_variants x m' vs) args' raw ex).
Proof.
  intros Ha. induction vs as [|[[a o] im] vs IH]; intros n n' m m' E; cbn [number_variants viable]; [constructor|].
  set (f := {| f_id := m; f_name := x; f_arg_types := a; f_out_type := o; f_impl := im |}).
  set (f' := {| f_id := m'; f_name := x; f_arg_types := a; f_out_type := o; f_impl := im |}).
  assert (Hf : same_func f f') by (repeat split).
  assert (Hr : rawrel eq raw raw) by (destruct raw; cbn; auto).
  pose proof (elab_func_rel same_func eq same_sig f f' args args' raw raw ex Hf Ha Hr) as H.
  specialize (IH n n' (N.succ m) (N.succ m') ltac:(lia)).
  destruct (elab_func f args raw ex) as [[c tes]|], (elab_func f' args' raw ex) as [[c' tes']|]; try contradiction; [|exact IH].
  destruct H as [-> H]. constructor; [|exact IH]. split; [cbn; auto|exact E].
Qed.
Lemma shifted_lt n n' a a' b b' : shifted n n' a b -> shifted n n' a' b' -> entry_lt a a' = entry_lt b b'.
Proof.
  destruct a as [[c f] t], a' as [[c1 f1] t1], b as [[c2 f2] t2], b' as [[c3 f3] t3].
  intros ((-> & (Ea & _) & _) & H) ((-> & (Ea1 & _) & _) & H1). cbn [fst snd] in H, H1. unfold entry_lt, betterb. cbn [fst].
  unfold is_variadic, num_args. rewrite Ea, Ea1. replace (f_id f <? f_id f1)%N with (f_id f2 <? f_id f3)%N; [reflexivity|].
  destruct (N.ltb_spec (f_id f2) (f_id f3)), (N.ltb_spec (f_id f) (f_id f1)); try reflexivity; lia.
Qed.
Lemma elab_named G e : calls_known named e -> erel same_func eq (elab env G e) (elab env' G e).
Proof.
  induction e as [id v|id name args raw IH] using expr_ind'; intros Hk ex; cbn [elab].
  - destruct (coercion_cost _ _); [|exact eq_refl]. cbn. split; [constructor; reflexivity|reflexivity].
  - inversion Hk as [|? ? ? ? Hn Hargs]; subst. assert (Ha : Forall2 (erel same_func eq) (map (elab env G) args) (map (elab env' G) args)).
    { clear - IH Hargs. induction IH as [|a args Ha _ IHa]; inversion Hargs; subst; cbn [map]; constructor; auto. }
    destruct (same name Hn) as (vs & n & n' & -> & ->). destruct vs as [vs|]; [|exact eq_refl]. cbn [option_map].
    pose proof (leftmost_rel _ entry_lt entry_lt _ _ (shifted_lt n n') (viable_shifted name vs _ _ (option_map snd raw) ex Ha n n' n n' ltac:(lia))) as Hb.
    rewrite (best_leftmost (viable (number_variants name n vs) _ _ _)), (best_leftmost (viable (number_variants name n' vs) _ _ _)).
    destruct (leftmost entry_lt (viable (number_variants name n vs) _ _ ex)) as [[[c f] tes]|], (leftmost entry_lt (viable (number_variants name n' vs) _ _ ex)) as [[[c' f'] tes']|];
      try contradiction; [|exact eq_refl].
    destruct Hb as ((-> & Hf & Ht) & _). cbn. rewrite (proj2 (same_sig _ _ Hf)). split; [constructor; assumption|reflexivity].
Qed.
Lemma elab_items_named items : forall G, Forall (calls_known named) (map snd items) ->
  match elab_items env G items, elab_items env' G items with
  | Ok tis, Ok tis' => Forall2 (fun a b => fst a = fst b /\ trel same_func eq (snd a) (snd b)) tis tis'
  | Err e, Err e' => e = e'
  | _, _ => False
  end.
Proof.
  induction items as [|[n e] items IH]; intros G H; [constructor|]. inversion H as [|? ? He Hi]; subst. cbn [elab_items].
  pose proof (elab_named G e He None) as Hr. unfold orel in Hr.
  destruct (elab env G e None) as [[te c]|er], (elab env' G e None) as [[te' c']|er']; try contradiction; [|exact Hr].
  destruct Hr as [Ht ->]. destruct (assoc_str n G); [reflexivity|]. rewrite <- (trel_target _ _ _ _ Ht).
  specialize (IH ((n, target_of te) :: G) Hi).
  destruct (elab_items env _ items), (elab_items env' _ items); try contradiction; cbn [bind]; [|exact IH].
  constructor; [|exact IH]. auto.
Qed.
Lemma bindings_named O items : Forall (calls_known named) (map snd items) -> bindings O env items = bindings O env' items.
Proof.
  intros H. unfold bindings. pose proof (elab_items_named items [] H) as Hr.
  destruct (elab_items env [] items), (elab_items env' [] items); try contradiction; cbn [bind]; [|congruence].
  rewrite <- seeds. apply (trel_run_items O _ same_func); auto.
Qed.
Lemma execute_named O Y t (ast : raw_ast (list stmt)) : NoDup (flat_map ids (ast_exprs ast)) -> Forall (calls_known named) (ast_exprs ast) ->
  execute O Y env t ast = execute O Y env' t ast.
Proof.
  intros Hd Hk. unfold execute. destruct (expand ast) as [rws| |] eqn:Hx; try reflexivity. cbn [bind].
  assert (E : mapM (execute_block_rewrite O Y env t) rws = mapM (execute_block_rewrite O Y env' t) rws); [|rewrite E; reflexivity].
  assert (H : forall rw, In rw rws -> execute_block_rewrite O Y env t rw = execute_block_rewrite O Y env' t rw).
  { intros rw Hin. pose proof (expand_part _ _ _ Hx Hin) as Hp. unfold execute_block_rewrite.
    assert (Hn : NoDup (item_ids (spec_items (fst rw)))) by (rewrite item_ids_exprs; eapply part_NoDup; [apply part_flat_map; exact Hp|exact Hd]).
    rewrite !make_substitutions_spec by exact Hn. rewrite (bindings_named O); [reflexivity|]. eapply part_Forall; [exact Hp|exact Hk]. }
  clear -H. induction rws as [|rw rws IH]; [reflexivity|]. cbn [mapM]. rewrite (H rw) by (left; reflexivity).
  rewrite IH by (intros rw' Hi; apply H; right; exact Hi). reflexivity.
Qed.
End Environments.

(** ** Uses *)
Section Uses.
Context (O : oracles) (P : parsers) (Y : syntax).
Definition names (s : source) (x : str) : bool := existsb (str_eqb x) (called_by s).
Lemma names_in s x : names s x = true <-> In x (called_by s).
Proof.
  unfold names. rewrite existsb_exists. split; [intros (y & Hy & E); apply str_eqb_eq in E as ->; exact Hy|]. intros H. exists x. split; [exact H|apply str_eqb_refl].
Qed.

Definition parse_knowing (hf : str -> bool) (n : N) (s : source) : parsed :=
  match s with
  | Compose ts | ComposeIdents ts => parse_func_macro P hf n ts
  | ComposeItem attr item => parse_attr_macro P hf n attr item
  end.
Lemma parse_agree hf hf' n s : (forall x, In x (called_by s) -> hf x = hf' x) -> parse_knowing hf n s = parse_knowing hf' n s.
Proof. destruct s as [ts|ts|attr item]; cbn; intros H; [apply func_macro_alike|apply func_macro_alike|apply attr_macro_alike]; exact H. Qed.
Lemma parsed_named hf n s ast : p_ast (parse_knowing hf n s) = Ok (Some ast) ->
  NoDup (flat_map ids (ast_exprs ast)) /\ Forall (calls_known (names s)) (ast_exprs ast).
Proof.
  intros H. rewrite (parse_agree hf (fun x => hf x && names s x)) in H.
  2:{ intros x Hx. apply names_in in Hx. rewrite Hx, andb_true_r. reflexivity. }
  assert (exists n', drawn n n' (flat_map ids (ast_exprs ast)) /\ Forall (calls_known (fun x => hf x && names s x)) (ast_exprs ast)) as (n' & (_ & Hn & _) & Hk).
  { destruct s as [ts|ts|attr item]; cbn [parse_knowing] in H; [eapply func_macro_drawn|eapply func_macro_drawn|eapply attr_macro_drawn]; exact H. }
  split; [exact Hn|]. eapply Forall_impl; [|exact Hk]. intros e. apply calls_known_mono. intros x E. apply andb_true_iff in E as (_ & E). exact E.
Qed.
Lemma parse_source_knowing rows n s : parse_source P rows n s = parse_knowing (table_knows rows) n s.
Proof. destruct s; reflexivity. Qed.

Lemma core_same rows rows' u t : same_functions rows rows' u ->
  compose_core_in O Y (table_environment rows (u_seed u) (u_first_id u)) (prefix_of (u_source u)) (parse_source P rows (u_next_id u) (u_source u)) t =
  compose_core_in O Y (table_environment rows' (u_seed u) (u_first_id u)) (prefix_of (u_source u)) (parse_source P rows' (u_next_id u) (u_source u)) t.
Proof.
  intros H. assert (E : parse_source P rows (u_next_id u) (u_source u) = parse_source P rows' (u_next_id u) (u_source u)).
  { rewrite !parse_source_knowing. apply parse_agree. intros x Hx. unfold table_knows. rewrite (H x Hx). reflexivity. }
  rewrite E. unfold compose_core_in. destruct (scoped _) as [t2| |]; [|reflexivity|reflexivity]. destruct (run_parser _ t2) as [t3| |]; [|reflexivity|reflexivity].
  destruct (p_ast (parse_source P rows' (u_next_id u) (u_source u))) as [[ast|]| |] eqn:Ep; try reflexivity.
  rewrite parse_source_knowing in Ep. apply parsed_named in Ep as (Hd & Hk).
  rewrite (execute_named (table_environment rows (u_seed u) (u_first_id u)) (table_environment rows' (u_seed u) (u_first_id u)) (names (u_source u))); auto.
  intros x Hx. apply names_in in Hx. unfold get_func_variants, table_environment. cbn [e_funcs].
  destruct (rows_variants rows x (u_first_id u)) as (n & Hn), (rows_variants rows' x (u_first_id u)) as (n' & Hn').
  exists (assoc_str x rows), n, n'. rewrite (H x Hx) in *. auto.
Qed.
Theorem unnamed_functions rows rows' uses : Forall (same_functions rows rows') uses -> forall t, run_with O P Y rows t uses = run_with O P Y rows' t uses.
Proof.
  induction 1 as [|u uses Hu _ IH]; intros t; [reflexivity|]. cbn [run_with]. rewrite (core_same rows rows' u t Hu). destruct (compose_core_in _ _ _ _ _ t) as [t1 o]. rewrite IH. reflexivity.
Qed.

(** The table of the macros. *)
Lemma table_known x : table_knows (table O) x = known O x.
Proof.
  unfold table_knows, known, has_func, get_func_variants, new_initialized. cbn [e_funcs]. destruct (rows_variants (table O) x 0) as (n & ->).
  destruct (assoc_str x (table O)); reflexivity.
Qed.
Lemma run_table uses : forall t, run_with O P Y (table O) t uses = Interpreter.run O Y t (map (invocation_for O P) uses).
Proof.
  induction uses as [|u uses IH]; intros t; [reflexivity|]. cbn [run_with map Interpreter.run].
  assert (E : compose_core_in O Y (table_environment (table O) (u_seed u) (u_first_id u)) (prefix_of (u_source u)) (parse_source P (table O) (u_next_id u) (u_source u)) t =
              compose_core O Y t (invocation_for O P u)).
  { rewrite parse_source_knowing, (parse_agree (table_knows (table O)) (known O)) by (intros x _; apply table_known).
    unfold invocation_for, invocation_of, compose_core, compose_core_in. cbn [inv_prefix inv_parsed inv_seed inv_first_id].
    destruct (u_source u); reflexivity. }
  rewrite E. destruct (compose_core O Y t (invocation_for O P u)) as [t1 o]. rewrite IH. reflexivity.
Qed.
Theorem own_table uses : expand_uses_with O P Y (table O) uses = expand_uses O P Y uses.
Proof. unfold expand_uses_with, expand_uses. rewrite run_table. reflexivity. Qed.

(** More functions. *)
Lemma added_front extra rows u : (forall x, In x (called_by (u_source u)) -> ~ In x (map fst extra)) -> same_functions rows (extra ++ rows) u.
Proof.
  intros H x Hx. specialize (H x Hx). induction extra as [|[y vs] extra IH]; [reflexivity|]. cbn [app assoc_str]. cbn [map fst] in H.
  destruct (str_eqb x y) eqn:E; [apply str_eqb_eq in E as ->; exfalso; apply H; left; reflexivity|]. apply IH. intros Hi. apply H. right. exact Hi.
Qed.
Lemma added_back extra rows u : (forall x, In x (called_by (u_source u)) -> ~ In x (map fst extra)) -> same_functions rows (rows ++ extra) u.
Proof.
  intros H x Hx. specialize (H x Hx). induction rows as [|[y vs] rows IH].
  - cbn [app assoc_str]. symmetry. apply assoc_str_None. exact H.
  - cbn [app assoc_str]. destruct (str_eqb x y); [reflexivity|exact IH].
Qed.
Theorem more_functions rows uses uses' : Forall2 (same_use O P) uses uses' -> Forall (same_functions (table O) rows) uses' ->
  expand_uses_with O P Y rows uses' = expand_uses O P Y uses.
Proof.
  intros H1 H2. rewrite (uses_same O P Y uses uses' H1), <- own_table. unfold expand_uses_with. rewrite (unnamed_functions _ _ _ H2). reflexivity.
Qed.
End Uses.
