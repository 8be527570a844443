(** Overloads that no call takes in the end have no effect. *)
From Coq Require Import String.
From Verif Require Import Base BaseFacts Token Types Values Ast Env Item Expand Resolve Eval Deprecation Interpreter Parse Macro UniqueId
  SpecProduct SpecTuple SpecElab SpecPrograms SpecParse SpecDeprecation SpecMacro SpecRepro Threads SpecExtend SpecOverload SpecScope SpecChoice
  ElabFacts ElabProofs ResolveFacts MacroProofs InterpreterProofs ParseIds ReproProofs ExtendParse ExtendProofs OverloadProofs.
Open Scope list_scope.

Section Choice.
Context (new : str -> overload -> Prop).

(** ** Terms without new overloads *)
Inductive clean : texpr -> Prop :=
| clean_value v t : clean (TEVal v t)
| clean_call f tes t : ~ new (f_name f) (overload_of f) -> Forall clean tes -> clean (TECall f tes t).

(** With more overloads: nothing gets dearer, and what takes no new overload is as before. *)
Definition omono (a b : SpecElab.outcome) : Prop :=
  match a, b with
  | inl (te, c), inl (te', c') => (c' <= c)%N /\ (clean te' -> trel same_func eq te te' /\ c = c')
  | inr e, inr e' => e = e'
  | inr _, inl (te', _) => ~ clean te'
  | inl _, inr _ => False
  end.
Definition emono (a b : elaborator) : Prop := forall ex, omono (a ex) (b ex).
Definition lmono (a b : option (N * list texpr)) : Prop :=
  match a, b with
  | Some (c, tes), Some (c', tes') => (c' <= c)%N /\ (Forall clean tes' -> Forall2 (trel same_func eq) tes tes' /\ c = c')
  | None, None => True
  | None, Some (_, tes') => ~ Forall clean tes'
  | Some _, None => False
  end.
Lemma elab_args_mono ps : forall args args', Forall2 emono args args' -> lmono (elab_args ps args) (elab_args ps args').
Proof.
  induction ps as [|[t m] ps IH]; intros args args' H; [cbn; split; [lia|auto]|].
  destruct H as [|a a' args args' Ha Hargs]; [cbn; split; [lia|auto]|]. cbn [elab_args].
  specialize (Ha (Some t)). unfold omono in Ha. specialize (IH _ _ Hargs). unfold lmono in *.
  destruct (a (Some t)) as [[te c]|], (a' (Some t)) as [[te' c']|]; try contradiction.
  - destruct Ha as [Hc Ht]. destruct (elab_args ps args) as [[d tes]|], (elab_args ps args') as [[d' tes']|]; try contradiction; auto.
    + destruct IH as [Hd IH]. split; [nia|]. intros HF. inversion HF as [|? ? H1 H2]; subst.
      destruct (Ht H1) as [T1 ->]. destruct (IH H2) as [T2 ->]. auto.
    + intros HF. inversion HF; subst. auto.
  - destruct (elab_args ps args'); [destruct p; intros HF; inversion HF; subst; auto|auto].
  - auto.
Qed.
Lemma elab_func_mono f f' args args' raw ex : same_func f f' -> Forall2 emono args args' ->
  lmono (elab_func f args raw ex) (elab_func f' args' raw ex).
Proof.
  intros Hf Hargs. destruct (same_sig _ _ Hf) as [Ea Eo]. unfold elab_func, params, non_variadic_arg_types, variadic_arg_type, num_args.
  rewrite Ea, Eo. assert (Hlen : List.length args = List.length args') by (clear - Hargs; induction Hargs; cbn; congruence). rewrite <- Hlen.
  destruct (match ex with Some t => coercion_cost (f_out_type f') t | None => Some 0%N end) as [c0|]; [|exact I].
  set (P := match match find is_variadic_ty (f_arg_types f') with Some (TyVariadic t) => Some t | _ => None end with
            | Some t => _ | None => _ end).
  assert (Hgen : lmono match P with None => None | Some ps => match elab_args ps args with Some (c, tes) => Some ((c0 + c)%N, tes) | None => None end end
      match P with None => None | Some ps => match elab_args ps args' with Some (c, tes) => Some ((c0 + c)%N, tes) | None => None end end).
  { destruct P as [ps|]; [|exact I]. pose proof (elab_args_mono ps _ _ Hargs) as H. unfold lmono in *.
    destruct (elab_args ps args) as [[d tes]|], (elab_args ps args') as [[d' tes']|]; try contradiction; auto.
    destruct H as [Hd H]. split; [lia|]. intros HF. destruct (H HF) as [H1 ->]. auto. }
  destruct (f_arg_types f') as [|t0 ts0]; [exact Hgen|]. destruct t0, ts0; try exact Hgen. destruct raw as [ts|]; [|exact Hgen].
  cbn. split; [lia|]. intros _. split; [|reflexivity]. constructor; [constructor; reflexivity|constructor].
Qed.

(** ** The best overload *)
Definition rank (e : entry) : N * N * nat := let '(c, f, _) := e in (c, N.b2n (is_variadic f), num_args f).
Definition rank_lt (a b : N * N * nat) : Prop :=
  let '(c1, v1, n1) := a in let '(c2, v2, n2) := b in (c1 < c2)%N \/ (c1 = c2 /\ ((v1 < v2)%N \/ (v1 = v2 /\ n1 < n2))).
Lemma worth_rank a b : worth a b = true <-> rank_lt (rank a) (rank b).
Proof.
  destruct a as [[c f] t], b as [[c1 f1] t1]. cbn [worth rank rank_lt]. destruct (N.ltb_spec c c1), (N.eqb_spec c c1), (Nat.ltb_spec (num_args f) (num_args f1)), (is_variadic f), (is_variadic f1); cbn; split; intros; try discriminate; try reflexivity; lia.
Qed.
Ltac ranks := repeat match goal with
  | H : worth _ _ = true |- _ => apply worth_rank in H
  | H : worth ?a ?b = false |- _ => assert (~ rank_lt (rank a) (rank b)) by (rewrite <- worth_rank, H; discriminate); clear H
  | |- worth _ _ = true => apply worth_rank
  | |- worth _ _ = false => apply not_true_is_false; rewrite worth_rank
  end.

(** [b] is the same overload as [a], or cheaper. *)
Definition entry_mono (a b : entry) : Prop :=
  let '(c, f, tes) := a in let '(c', f', tes') := b in
  same_func f f' /\ f_name f = f_name f' /\ (c' <= c)%N /\ (Forall clean tes' -> Forall2 (trel same_func eq) tes tes' /\ c = c').
Definition entry_clean (b : entry) : Prop := let '(_, f, tes) := b in ~ new (f_name f) (overload_of f) /\ Forall clean tes.
Lemma mono_rank a b : entry_mono a b -> ~ rank_lt (rank a) (rank b).
Proof.
  destruct a as [[c f] t], b as [[c1 f1] t1]. intros ((Ea & _) & _ & Hc & _). cbn [rank rank_lt]. unfold is_variadic, num_args. rewrite Ea. lia.
Qed.
Lemma rank_below a b c : ~ rank_lt a b -> rank_lt a c -> rank_lt b c.
Proof. destruct a as [[? ?] ?], b as [[? ?] ?], c as [[? ?] ?]. cbn. lia. Qed.
Lemma rank_above a b c : ~ rank_lt c b -> rank_lt a b -> rank_lt a c.
Proof. destruct a as [[? ?] ?], b as [[? ?] ?], c as [[? ?] ?]. cbn. lia. Qed.
Lemma rank_cross a b c : ~ rank_lt a b -> ~ rank_lt b c -> ~ rank_lt a c.
Proof. destruct a as [[? ?] ?], b as [[? ?] ?], c as [[? ?] ?]. cbn. lia. Qed.
Lemma rank_lt_asym a b : rank_lt a b -> ~ rank_lt b a.
Proof. destruct a as [[? ?] ?], b as [[? ?] ?]. cbn. lia. Qed.
Lemma rel_rank a b : entry_rel same_func eq a b -> rank a = rank b.
Proof. destruct a as [[c f] t], b as [[c1 f1] t1]. intros (-> & (Ea & _) & _). cbn [rank]. unfold is_variadic, num_args. rewrite Ea. reflexivity. Qed.

(** Accepted overloads before and after. *)
Inductive grown : list entry -> list entry -> Prop :=
| grown_nil : grown [] []
| grown_both a b l l' : entry_mono a b -> grown l l' -> grown (a :: l) (b :: l')
| grown_new b l l' : ~ entry_clean b -> grown l l' -> grown l (b :: l').
Lemma grown_best l l' : grown l l' ->
  match leftmost worth l, leftmost worth l' with
  | Some a, Some b => ~ rank_lt (rank a) (rank b) /\ (entry_clean b -> entry_rel same_func eq a b)
  | None, None => True
  | None, Some b => ~ entry_clean b
  | Some _, None => False
  end.
Proof.
  induction 1 as [|a b l l' Hab Hl IH|b l l' Hb Hl IH]; [exact I| |]; cbn [leftmost].
  - assert (R : entry_clean b -> entry_rel same_func eq a b).
    { destruct a as [[c f] t], b as [[c1 f1] t1]. destruct Hab as (Hf & _ & _ & H). intros (_ & Hc). destruct (H Hc) as (H1 & ->). cbn. auto. }
    assert (C : entry_clean b -> rank a = rank b) by (intros Hc; apply rel_rank, R, Hc).
    pose proof (mono_rank _ _ Hab) as M.
    destruct (leftmost worth l) as [x|], (leftmost worth l') as [y|]; try contradiction.
    + destruct IH as [Hm Hc]. destruct (worth x a) eqn:Wx, (worth y b) eqn:Wy; ranks.
      * auto.
      * split; [apply (rank_cross (rank x) (rank y) (rank b)); assumption|].
        intros Hcb. exfalso. apply (rank_above _ _ (rank b)) in Wx; [|rewrite (C Hcb); destruct (rank b) as [[? ?] ?]; cbn; lia]. apply H. eapply rank_below; [exact Hm|exact Wx].
      * split.
        -- apply (rank_lt_asym (rank y) (rank a)). apply (rank_above _ (rank b)); assumption.
        -- intros Hcy. exfalso. apply H. rewrite (rel_rank _ _ (Hc Hcy)). apply (rank_above _ (rank b)); assumption.
      * auto.
    + destruct (worth y b) eqn:Wy; ranks; [|auto]. split; [|intros Hy; contradiction]. apply (rank_lt_asym (rank y) (rank a)). apply (rank_above _ (rank b)); assumption.
    + split; assumption.
  - destruct (leftmost worth l) as [x|], (leftmost worth l') as [y|]; try contradiction.
    + destruct IH as [Hm Hc]. destruct (worth y b) eqn:W; ranks; [auto|]. split; [|intros; contradiction].
      eapply rank_cross; eassumption.
    + destruct (worth y b); assumption.
    + assumption.
Qed.
Lemma viable_grown x vs vs' args args' raw ex : interspersed (new x) vs vs' -> Forall2 emono args args' -> forall n n',
  grown (viable (number_variants x n vs) args raw ex) (viable (number_variants x n' vs') args' raw ex).
Proof.
  intros Hi Ha. induction Hi as [|[[a o] im] vs vs' Hi IH|[[a o] im] vs vs' Ho Hi IH]; intros n n'; cbn [number_variants viable].
  - constructor.
  - set (f := {| f_id := n; f_name := x; f_arg_types := a; f_out_type := o; f_impl := im |}).
    set (f' := {| f_id := n'; f_name := x; f_arg_types := a; f_out_type := o; f_impl := im |}).
    assert (Hf : same_func f f') by (repeat split).
    pose proof (elab_func_mono f f' args args' raw ex Hf Ha) as H. unfold lmono in H.
    destruct (elab_func f args raw ex) as [[c tes]|], (elab_func f' args' raw ex) as [[c' tes']|]; try contradiction.
    + constructor; [|apply IH]. destruct H as (H1 & H2). split; [exact Hf|]. auto.
    + constructor; [|apply IH]. intros (_ & Hc). auto.
    + apply IH.
  - destruct (elab_func _ args' raw ex) as [[c' tes']|]; [|apply IH]. constructor; [|apply IH]. intros (Hn & _). apply Hn. exact Ho.
Qed.

(** ** Definitions *)
Section Environments.
Context (env env' : environment) (named : str -> bool).
Hypothesis same : forall x, named x = true -> exists n n',
  (get_func_variants env x = None /\ get_func_variants env' x = None) \/
  exists vs vs', interspersed (new x) vs vs' /\
    get_func_variants env x = Some (number_variants x n vs) /\ get_func_variants env' x = Some (number_variants x n' vs').
Hypothesis seeds : e_seed env = e_seed env'.

Lemma elab_mono G e : calls_known named e -> emono (elab env G e) (elab env' G e).
Proof.
  induction e as [id v|id name args raw IH] using expr_ind'; intros Hk ex; cbn [elab].
  - destruct (coercion_cost _ _); [|exact eq_refl]. cbn. split; [lia|]. intros _. split; [constructor; reflexivity|reflexivity].
  - inversion Hk as [|? ? ? ? Hn Hargs]; subst. assert (Ha : Forall2 emono (map (elab env G) args) (map (elab env' G) args)).
    { clear - IH Hargs. induction IH as [|a args Ha _ IHa]; inversion Hargs; subst; cbn [map]; constructor; auto. }
    destruct (same name Hn) as (n & n' & [(-> & ->)|(vs & vs' & Hi & -> & ->)]); [exact eq_refl|].
    pose proof (grown_best _ _ (viable_grown name vs vs' _ _ (option_map snd raw) ex Hi Ha n n')) as Hb.
    rewrite (rising_best (viable (number_variants name n vs) _ _ _)) by apply viable_above.
    rewrite (rising_best (viable (number_variants name n' vs') _ _ _)) by apply viable_above.
    destruct (leftmost worth (viable (number_variants name n vs) _ _ ex)) as [[[c f] tes]|], (leftmost worth (viable (number_variants name n' vs') _ _ ex)) as [[[c' f'] tes']|];
      try contradiction; [| |exact eq_refl].
    + destruct Hb as (Hr & Hc). cbn. cbn [rank rank_lt] in Hr. split; [lia|]. intros Hcl. inversion Hcl as [|? ? ? Hnew Htes]; subst.
      destruct (Hc (conj Hnew Htes)) as (-> & Hf & Ht). rewrite (proj2 (same_sig _ _ Hf)). split; [constructor; assumption|reflexivity].
    + cbn. intros Hcl. inversion Hcl; subst. apply Hb. split; assumption.
Qed.
(** Terms that the side tables hold are clean if the tables are. *)
Lemma encodes_clean te : forall sc e, (forall id m, assoc_N id (sc_calls sc) = Some m -> ~ new (f_name (cm_func m)) (overload_of (cm_func m))) -> encodes sc te e -> clean te.
Proof.
  induction te as [v t|f tes t IH] using texpr_ind'; intros sc e Hc He; [constructor|]. destruct e as [id v'|id name args raw]; cbn [encodes] in He; [contradiction|].
  destruct He as (as' & c & Hm & _ & Hall). constructor; [exact (Hc _ _ Hm)|]. clear Hm. revert as' Hall.
  induction IH as [|te tes Hte _ IHtes]; intros [|a as'] Hall; cbn [all2] in Hall; try contradiction; [constructor|]. destruct Hall as [Ha Hall].
  constructor; [exact (Hte sc a Hc Ha)|exact (IHtes as' Hall)].
Qed.
Lemma elab_items_mono items : NoDup (item_ids items) -> none_taken env' new items -> Forall (calls_known named) (map snd items) ->
  forall before after tis, items = before ++ after -> elab_items env' [] before = Ok tis ->
  match elab_items env (tenv_of tis) after, elab_items env' (tenv_of tis) after with
  | Ok tis, Ok tis' => Forall2 (fun a b => fst a = fst b /\ trel same_func eq (snd a) (snd b)) tis tis'
  | Err e, Err e' => e = e'
  | _, _ => False
  end.
Proof.
  intros Hd Hn Hk before after. revert before. induction after as [|[x e] after IH]; intros before tis E Hb; [constructor|]. cbn [elab_items].
  assert (Hd1 : NoDup (item_ids (before ++ [(x, e)]))).
  { rewrite E in Hd. change ((x, e) :: after) with ([(x, e)] ++ after) in Hd. rewrite app_assoc in Hd. eapply spec_ids_prefix; exact Hd. }
  assert (Hd0 : NoDup (item_ids before)) by (eapply spec_ids_prefix; exact Hd1).
  assert (exists sc, resolve_items env' empty_scope before = Ok sc) as (sc & Hr).
  { pose proof (resolve_items_ok env' before [] empty_scope (Forall2_nil _) Hd0 ltac:(intros ? []) ltac:(intros ? _; reflexivity)) as H. rewrite Hb in H. destruct H as (sc & H & _). eauto. }
  destruct (ready_after env' before x e sc Hd1 Hr) as (tis' & Hb' & (Hal & Hnd & Hap & Hfr)). rewrite Hb in Hb'. injection Hb' as <-.
  pose proof (resolve_expr_ok env' (tenv_of tis) e sc None Hal Hnd Hap Hfr) as He.
  assert (Hke : calls_known named e).
  { rewrite E, map_app in Hk. apply Forall_app in Hk as (_ & Hk). inversion Hk; subst. assumption. }
  pose proof (elab_mono (tenv_of tis) e Hke None) as M. unfold omono in M.
  destruct (elab env' (tenv_of tis) e None) as [[te' c']|er'] eqn:Ee.
  - destruct He as (sc' & Hre & _ & Henc & _). assert (Hc : clean te') by (eapply encodes_clean; [|exact Henc]; intros id m Hm; eapply Hn; eassumption).
    destruct (elab env (tenv_of tis) e None) as [[te c]|er]; [|contradiction]. destruct M as (_ & M). destruct (M Hc) as (Ht & ->).
    destruct (assoc_str x (tenv_of tis)) eqn:Ex; [reflexivity|].
    specialize (IH (before ++ [(x, e)]) (tis ++ [(x, te')])).
    assert (Et : tenv_of (tis ++ [(x, te')]) = (x, target_of te') :: tenv_of tis) by (unfold tenv_of; rewrite map_app, rev_app_distr; reflexivity).
    rewrite Et, <- (trel_target _ _ _ _ Ht) in IH. rewrite <- (trel_target _ _ _ _ Ht).
    specialize (IH ltac:(rewrite <- app_assoc; exact E)). rewrite elab_items_app, Hb in IH. cbn [bind] in IH. rewrite app_nil_r in IH.
    cbn [elab_items] in IH. rewrite Ee, Ex in IH. specialize (IH eq_refl).
    destruct (elab_items env _ after), (elab_items env' _ after); try contradiction; cbn [bind]; [|exact IH].
    constructor; [|exact IH]. auto.
  - destruct (elab env (tenv_of tis) e None) as [[te c]|er]; [contradiction|]. exact M.
Qed.
Lemma bindings_mono O items : NoDup (item_ids items) -> none_taken env' new items -> Forall (calls_known named) (map snd items) -> bindings O env items = bindings O env' items.
Proof.
  intros Hd Hn Hk. unfold bindings. pose proof (elab_items_mono items Hd Hn Hk [] items [] eq_refl eq_refl) as Hr. change (tenv_of []) with (@nil (str * ty)) in Hr.
  destruct (elab_items env [] items), (elab_items env' [] items); try contradiction; cbn [bind]; [|congruence].
  rewrite <- seeds. apply (trel_run_items O _ same_func); auto.
Qed.
Lemma execute_mono O Y t (ast : raw_ast (list stmt)) : NoDup (flat_map ids (ast_exprs ast)) -> Forall (calls_known named) (ast_exprs ast) ->
  (forall rws rw, expand ast = Ok rws -> In rw rws -> none_taken env' new (spec_items (fst rw))) ->
  execute O Y env t ast = execute O Y env' t ast.
Proof.
  intros Hd Hk Hn. unfold execute. destruct (expand ast) as [rws| |] eqn:Hx; try reflexivity. cbn [bind].
  assert (E : mapM (execute_block_rewrite O Y env t) rws = mapM (execute_block_rewrite O Y env' t) rws); [|rewrite E; reflexivity].
  assert (H : forall rw, In rw rws -> execute_block_rewrite O Y env t rw = execute_block_rewrite O Y env' t rw).
  { intros rw Hin. pose proof (expand_part _ _ _ Hx Hin) as Hp. unfold execute_block_rewrite.
    assert (Hi : NoDup (item_ids (spec_items (fst rw)))) by (rewrite item_ids_exprs; eapply part_NoDup; [apply part_flat_map; exact Hp|exact Hd]).
    rewrite !make_substitutions_spec by exact Hi. rewrite (bindings_mono O); [reflexivity|exact Hi|exact (Hn _ _ eq_refl Hin)|]. eapply part_Forall; [exact Hp|exact Hk]. }
  clear -H. induction rws as [|rw rws IH]; [reflexivity|]. cbn [mapM]. rewrite (H rw) by (left; reflexivity).
  rewrite IH by (intros rw' Hi; apply H; right; exact Hi). reflexivity.
Qed.
End Environments.

(** ** Uses *)
Section Uses.
Context (O : oracles) (P : parsers) (Y : syntax).
Lemma parse_more rows rows' u : more_overloads new rows rows' u -> parse_source P rows (u_next_id u) (u_source u) = parse_source P rows' (u_next_id u) (u_source u).
Proof.
  intros H. rewrite !parse_source_knowing. apply parse_agree. intros x Hx. unfold table_knows. specialize (H x Hx).
  destruct (assoc_str x rows), (assoc_str x rows'); try contradiction; reflexivity.
Qed.
Lemma tables_same rows rows' u : more_overloads new rows rows' u -> forall x, names (u_source u) x = true -> exists n n',
  (get_func_variants (table_environment rows (u_seed u) (u_first_id u)) x = None /\ get_func_variants (table_environment rows' (u_seed u) (u_first_id u)) x = None) \/
  exists vs vs', interspersed (new x) vs vs' /\
    get_func_variants (table_environment rows (u_seed u) (u_first_id u)) x = Some (number_variants x n vs) /\
    get_func_variants (table_environment rows' (u_seed u) (u_first_id u)) x = Some (number_variants x n' vs').
Proof.
  intros H x Hx. apply names_in in Hx. unfold get_func_variants, table_environment. cbn [e_funcs]. specialize (H x Hx).
  destruct (rows_variants rows x (u_first_id u)) as (n & Hn), (rows_variants rows' x (u_first_id u)) as (n' & Hn').
  exists n, n'. rewrite Hn, Hn'. destruct (assoc_str x rows) as [vs|], (assoc_str x rows') as [vs'|]; try contradiction; [|left; split; reflexivity].
  right. exists vs, vs'. auto.
Qed.
Lemma core_choice rows rows' u t : more_overloads new rows rows' u -> new_not_taken P rows' new u ->
  compose_core_in O Y (table_environment rows (u_seed u) (u_first_id u)) (prefix_of (u_source u)) (parse_source P rows (u_next_id u) (u_source u)) t =
  compose_core_in O Y (table_environment rows' (u_seed u) (u_first_id u)) (prefix_of (u_source u)) (parse_source P rows' (u_next_id u) (u_source u)) t.
Proof.
  intros H Ht. rewrite (parse_more rows rows' u H). unfold compose_core_in. destruct (scoped _) as [t2| |]; [|reflexivity|reflexivity]. destruct (run_parser _ t2) as [t3| |]; [|reflexivity|reflexivity].
  destruct (p_ast (parse_source P rows' (u_next_id u) (u_source u))) as [[ast|]| |] eqn:Ep; try reflexivity.
  pose proof Ep as Ep'. rewrite parse_source_knowing in Ep. apply parsed_named in Ep as (Hd & Hk).
  rewrite (execute_mono _ _ (names (u_source u)) (tables_same rows rows' u H) eq_refl); [reflexivity|exact Hd|exact Hk|].
  intros rws rw Hx Hi. exact (Ht ast rws rw Ep' Hx Hi).
Qed.
Theorem not_taken rows rows' uses : Forall (fun u => more_overloads new rows rows' u /\ new_not_taken P rows' new u) uses ->
  forall t, run_with O P Y rows t uses = run_with O P Y rows' t uses.
Proof.
  induction 1 as [|u uses [H1 H2] _ IH]; intros t; [reflexivity|]. cbn [run_with]. rewrite (core_choice rows rows' u t H1 H2). destruct (compose_core_in _ _ _ _ _ t) as [t1 o]. rewrite IH. reflexivity.
Qed.
End Uses.

(** ** Checking definitions by computation *)
Fixpoint none_recorded (env : environment) (newb : str -> list ty -> bool) (sc : scope) (items : list spec_item) : bool :=
  match items with
  | [] => true
  | (x, e) :: r =>
      match resolve_expr env e sc None with
      | Ok sc' => forallb (fun p => negb (newb (f_name (cm_func (snd p))) (f_arg_types (cm_func (snd p))))) (sc_calls sc') &&
          match try_add_name sc' x (expr_id e) with Ok sc'' => none_recorded env newb sc'' r | _ => true end
      | _ => true
      end
  end.
Lemma assoc_N_in {A} k (l : list (N * A)) a : assoc_N k l = Some a -> In (k, a) l.
Proof.
  induction l as [|[k' b] l IH]; [discriminate|]. cbn [assoc_N]. destruct (N.eqb_spec k k') as [->|]; [intros E; injection E as ->; left; reflexivity|]. intros E. right. apply IH, E.
Qed.
Lemma none_recorded_taken env newb items : (forall x o, new x o -> newb x (fst (fst o)) = true) -> none_recorded env newb empty_scope items = true -> none_taken env new items.
Proof.
  intros Hnew. unfold none_taken. generalize empty_scope. intros sc0 H before. revert sc0 items H.
  induction before as [|[y e0] before IH]; intros sc0 items H x e after sc sc' id m -> Hb He Hm Hn; cbn [app none_recorded resolve_items] in *.
  - injection Hb as <-. rewrite He in H. apply andb_true_iff in H as (H & _). rewrite forallb_forall in H. apply assoc_N_in in Hm. specialize (H _ Hm). cbn [snd] in H.
    apply Hnew in Hn. cbn [overload_of fst] in Hn. rewrite Hn in H. discriminate.
  - unfold resolve_item in Hb. cbn [fst snd] in Hb. destruct (resolve_expr env e0 sc0 None) as [s1| |]; try discriminate. cbn [bind] in Hb.
    apply andb_true_iff in H as (_ & H). destruct (try_add_name s1 y (expr_id e0)) as [s2| |]; try discriminate. cbn [bind] in Hb.
    exact (IH s2 _ H x e after sc sc' id m eq_refl Hb He Hm Hn).
Qed.
End Choice.

(** ** One definition *)
Lemma calls_known_all e : calls_known (fun _ => true) e.
Proof. induction e as [id v|id name args raw IH] using expr_ind'; constructor; [reflexivity|exact IH]. Qed.
Theorem still_resolves (rows rows' : list row) seed n G sc e ex sc' c :
  (forall x, match assoc_str x rows, assoc_str x rows' with
             | Some vs, Some vs' => interspersed (fun _ => True) vs vs'
             | None, None => True
             | _, _ => False
             end) ->
  ready G sc e -> resolve_expr (table_environment rows seed n) e sc ex = Ok sc' -> recorded_cost sc' e = Ok c ->
  exists sc2 c2, resolve_expr (table_environment rows' seed n) e sc ex = Ok sc2 /\ recorded_cost sc2 e = Ok c2 /\ (c2 <= c)%N.
Proof.
  intros H (Hal & Hnd & Hap & Hfr) Hr Hc.
  assert (S : forall x, (fun _ : str => true) x = true -> exists m m',
    (get_func_variants (table_environment rows seed n) x = None /\ get_func_variants (table_environment rows' seed n) x = None) \/
    exists vs vs', interspersed ((fun _ _ => True) x) vs vs' /\
      get_func_variants (table_environment rows seed n) x = Some (number_variants x m vs) /\
      get_func_variants (table_environment rows' seed n) x = Some (number_variants x m' vs')).
  { intros x _. unfold get_func_variants, table_environment. cbn [e_funcs]. specialize (H x).
    destruct (rows_variants rows x n) as (m & Hm), (rows_variants rows' x n) as (m' & Hm').
    exists m, m'. rewrite Hm, Hm'. destruct (assoc_str x rows) as [vs|], (assoc_str x rows') as [vs'|]; try contradiction; [|left; split; reflexivity].
    right. exists vs, vs'. auto. }
  pose proof (elab_mono (fun _ _ => True) _ _ _ S eq_refl G e (calls_known_all e) ex) as M. unfold omono in M.
  pose proof (resolve_expr_ok (table_environment rows seed n) G e sc ex Hal Hnd Hap Hfr) as H1.
  pose proof (resolve_expr_ok (table_environment rows' seed n) G e sc ex Hal Hnd Hap Hfr) as H2.
  destruct (elab (table_environment rows seed n) G e ex) as [[te k]|]; [|destruct H1; congruence].
  destruct H1 as (s1 & E1 & _ & _ & C1 & _). rewrite Hr in E1. injection E1 as <-. rewrite Hc in C1. injection C1 as <-.
  destruct (elab (table_environment rows' seed n) G e ex) as [[te' k']|]; [|contradiction].
  destruct H2 as (s2 & E2 & _ & _ & C2 & _). exists s2, k'. destruct M as (M & _). auto.
Qed.
