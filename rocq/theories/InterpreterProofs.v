(** Proofs about whole invocations. *)
From Coq Require Import String.
From Verif Require Import Base Token Types Values Ast Env Eval Expand SpecProduct ExpandProofs LoopFacts
  Item AliasSubstitution VisitorProofs Deprecation Interpreter SpecDeprecation DeprecationProofs SpecInterpreter.
Open Scope list_scope.

(** ** The first failure *)
Lemma mapM_err {A B} (f : A -> res B) l e :
  mapM f l = Err e <-> exists pre x post, l = pre ++ x :: post /\ Forall (fun y => exists b, f y = Ok b) pre /\ f x = Err e.
Proof.
  induction l as [|a l IH]; cbn [mapM].
  - split; [discriminate|]. intros ([|? ?] & x & post & H & _); discriminate H.
  - destruct (f a) as [b|e'|p] eqn:E; cbn [bind].
    + transitivity (mapM f l = Err e); [destruct (mapM f l); cbn [bind]; split; congruence|].
      rewrite IH. split.
      * intros (pre & x & post & -> & Hp & Hx). exists (a :: pre), x, post. split; [reflexivity|]. split; [constructor; eauto|auto].
      * intros ([|y pre] & x & post & H & Hp & Hx); injection H as -> ->; [congruence|].
        inversion Hp; subst. exists pre, x, post. auto.
    + split.
      * intros H. injection H as ->. exists [], a, l. auto.
      * intros ([|y pre] & x & post & H & Hp & Hx); injection H as -> ->; [congruence|].
        inversion Hp as [|? ? [b Hb]]; subst. congruence.
    + split; [discriminate|].
      intros ([|y pre] & x & post & H & Hp & Hx); injection H as -> ->; [congruence|].
      inversion Hp as [|? ? [b Hb]]; subst. congruence.
Qed.
Lemma mapM_panic {A B} (f : A -> res B) l q :
  mapM f l = Panic q <-> exists pre x post, l = pre ++ x :: post /\ Forall (fun y => exists b, f y = Ok b) pre /\ f x = Panic q.
Proof.
  induction l as [|a l IH]; cbn [mapM].
  - split; [discriminate|]. intros ([|? ?] & x & post & H & _); discriminate H.
  - destruct (f a) as [b|e'|p] eqn:E; cbn [bind].
    + transitivity (mapM f l = Panic q); [destruct (mapM f l); cbn [bind]; split; congruence|].
      rewrite IH. split.
      * intros (pre & x & post & -> & Hp & Hx). exists (a :: pre), x, post. split; [reflexivity|]. split; [constructor; eauto|auto].
      * intros ([|y pre] & x & post & H & Hp & Hx); injection H as -> ->; [congruence|].
        inversion Hp; subst. exists pre, x, post. auto.
    + split; [discriminate|].
      intros ([|y pre] & x & post & H & Hp & Hx); injection H as -> ->; [congruence|].
      inversion Hp as [|? ? [b Hb]]; subst. congruence.
    + split.
      * intros H. injection H as ->. exists [], a, l. auto.
      * intros ([|y pre] & x & post & H & Hp & Hx); injection H as -> ->; [congruence|].
        inversion Hp as [|? ? [b Hb]]; subst. congruence.
Qed.

Section Facts.
Context (O : oracles) (Y : syntax).

Lemma execute_ok env t ast ts :
  execute O Y env t ast = Ok ts <->
  exists rws outs, expand ast = Ok rws /\
    Forall2 (fun rw o => execute_block_rewrite O Y env t rw = Ok o) rws outs /\ ts = concat outs.
Proof.
  unfold execute. split.
  - intros H. destruct (expand ast) as [rws| |]; try discriminate H. cbn [bind] in H.
    destruct (mapM (execute_block_rewrite O Y env t) rws) as [outs| |] eqn:E; try discriminate H.
    injection H as <-. exists rws, outs. split; [reflexivity|]. split; [apply mapM_ok; auto|reflexivity].
  - intros (rws & outs & -> & H & ->). cbn [bind]. rewrite (mapM_some _ _ _ H). reflexivity.
Qed.

Lemma execute_err env t ast e :
  execute O Y env t ast = Err e <->
  expand ast = Err e \/
  exists rws pre rw post, expand ast = Ok rws /\ rws = pre ++ rw :: post /\
    Forall (fun r => exists o, execute_block_rewrite O Y env t r = Ok o) pre /\
    execute_block_rewrite O Y env t rw = Err e.
Proof.
  unfold execute. destruct (expand ast) as [rws|e'|p]; cbn [bind].
  - transitivity (mapM (execute_block_rewrite O Y env t) rws = Err e).
    + destruct (mapM _ rws); cbn [bind]; split; congruence.
    + rewrite mapM_err. split.
      * intros (pre & x & post & H). right. exists rws, pre, x, post. tauto.
      * intros [H|(rws' & pre & x & post & H & H')]; [discriminate H|]. injection H as <-. exists pre, x, post. tauto.
  - split; [left; congruence|]. intros [H|(? & ? & ? & ? & H & _)]; congruence.
  - split; [discriminate|]. intros [H|(? & ? & ? & ? & H & _)]; discriminate H.
Qed.

Lemma expand_err {B} (ast : raw_ast B) loops e : ast_loops ast = Some loops ->
  (expand ast = Err e <-> exists pre c post, all_combinations (map loop_values loops) = pre ++ c :: post /\
     Forall (fun d => exists rw, rewrite_for ast loops d = Ok rw) pre /\ rewrite_for ast loops c = Err e).
Proof. intros H. rewrite (expand_first_error ast loops H). apply mapM_err. Qed.

(** ** Invocations *)
Definition thread_for (prefix : str) (inv : invocation) : thread :=
  Some {| warnings := raised inv; borrowed := 1; s_prefix := prefix |}.
Definition outcome (prefix : str) (inv : invocation) : output :=
  match p_ast (inv_parsed inv) with
  | Panic p => Panicked p
  | Err e => CompileError e
  | Ok None => SyntaxError
  | Ok (Some ast) =>
      match execute O Y (new_initialized O (inv_seed inv) (inv_first_id inv)) (thread_for prefix inv) ast with
      | Ok ts => Code ts
      | Err e => CompileError e
      | Panic p => Panicked p
      end
  end.
Definition idle (prefix : str) : thread := Some {| warnings := []; borrowed := 0; s_prefix := prefix |}.

Lemma run_parser_idle prefix inv :
  run_parser (inv_parsed inv) (Some {| warnings := []; borrowed := 1; s_prefix := prefix |}) = Ok (thread_for prefix inv).
Proof.
  unfold run_parser, thread_for, raised. destruct (p_scope (inv_parsed inv)) as [[|]|]; reflexivity.
Qed.

Lemma close_thread prefix inv o : close (thread_for prefix inv) o = (idle prefix, o).
Proof. reflexivity. Qed.

Lemma compose_core_idle prefix inv : compose_core O Y (idle prefix) inv = (idle prefix, outcome prefix inv).
Proof.
  unfold compose_core, outcome. cbn [maybe_set_global idle scoped warnings borrowed s_prefix].
  change (0 + 1)%N with 1%N. rewrite run_parser_idle.
  destruct (p_ast (inv_parsed inv)) as [[ast|]|e|p]; apply close_thread.
Qed.
Lemma compose_core_fresh inv : compose_core O Y None inv = (idle (inv_prefix inv), outcome (inv_prefix inv) inv).
Proof.
  rewrite <- compose_core_idle. reflexivity.
Qed.

Lemma run_idle prefix invs : run O Y (idle prefix) invs = (idle prefix, map (outcome prefix) invs).
Proof.
  induction invs as [|inv r IH]; cbn [run map]; [reflexivity|].
  rewrite compose_core_idle, IH. reflexivity.
Qed.
Lemma run_fresh inv r :
  run O Y None (inv :: r) = (idle (inv_prefix inv), map (outcome (inv_prefix inv)) (inv :: r)).
Proof. cbn [run map]. rewrite compose_core_fresh, run_idle. reflexivity. Qed.

Lemma run_leaves_idle invs t os : run O Y None invs = (t, os) ->
  (invs = [] /\ t = None) \/ exists inv r, invs = inv :: r /\
    t = Some {| warnings := []; borrowed := 0; s_prefix := inv_prefix inv |}.
Proof.
  destruct invs as [|inv r]; [intros H; injection H; auto|].
  rewrite run_fresh. intros H. injection H as <- _. right. exists inv, r. auto.
Qed.

Lemma run_no_leak : exists out : str -> invocation -> output, forall inv r,
  snd (run O Y None (inv :: r)) = map (out (inv_prefix inv)) (inv :: r).
Proof. exists outcome. intros inv r. rewrite run_fresh. reflexivity. Qed.

(** The code of an invocation: each block with the invocation's own warnings. *)
Definition emitted (prefix : str) (ws : list warning) (block : list stmt) : list tt :=
  forest_tokens (emit {| warnings := ws; borrowed := 1; s_prefix := prefix |} (as_forest Y (block_tokens block))).

Lemma execute_block_iff env prefix inv rw o :
  execute_block_rewrite O Y env (thread_for prefix inv) rw = Ok o <->
  exists bindings block, make_substitutions O env (fst rw) = Ok bindings /\
    visit_block O (fun x => assoc_str x bindings) (reparse Y) (snd rw) = Ok block /\ o = emitted prefix (raised inv) block.
Proof.
  unfold execute_block_rewrite, substitute. split.
  - intros H. destruct (make_substitutions O env (fst rw)) as [bs| |]; try discriminate H. cbn [bind] in H.
    destruct (visit_block _ _ _ _) as [b| |] eqn:E; try discriminate H. injection H as <-.
    exists bs, b. auto.
  - intros (bs & b & -> & H & ->). cbn [bind]. rewrite H. reflexivity.
Qed.

Lemma outcome_code prefix inv ts :
  outcome prefix inv = Code ts <->
  exists blocks, blocks_of O Y inv blocks /\ ts = concat (map (emitted prefix (raised inv)) blocks).
Proof.
  unfold outcome, blocks_of. split.
  - intros H. destruct (p_ast (inv_parsed inv)) as [[ast|]| |]; try discriminate H.
    destruct (execute O Y _ _ ast) as [ts'| |] eqn:E; try discriminate H. injection H as ->.
    apply execute_ok in E as (rws & outs & Hx & Hf & ->).
    assert (exists blocks, Forall2 (fun rw block => exists bindings,
      make_substitutions O (new_initialized O (inv_seed inv) (inv_first_id inv)) (fst rw) = Ok bindings /\
      visit_block O (fun x => assoc_str x bindings) (reparse Y) (snd rw) = Ok block) rws blocks /\
      outs = map (emitted prefix (raised inv)) blocks) as (blocks & Hb & ->).
    { clear Hx. induction Hf as [|rw o rws outs Ho Hf (bs & Hb & ->)]; [exists []; split; constructor|].
      apply execute_block_iff in Ho as (bindings & b & Hm & Hv & ->).
      exists (b :: bs). split; [constructor; eauto|reflexivity]. }
    exists blocks. split; [|reflexivity]. exists ast, rws. auto.
  - intros (blocks & (ast & rws & -> & Hx & Hf) & ->).
    assert (E : execute O Y (new_initialized O (inv_seed inv) (inv_first_id inv)) (thread_for prefix inv) ast =
                Ok (concat (map (emitted prefix (raised inv)) blocks))).
    { apply execute_ok. exists rws. eexists. split; [exact Hx|]. split; [|reflexivity].
      clear Hx. induction Hf as [|rw b rws bs (bindings & Hm & Hv) Hf IH]; cbn [map]; constructor; auto.
      apply execute_block_iff. eauto. }
    rewrite E. reflexivity.
Qed.

Lemma code_after_any_history hist inv t ts :
  fst (run O Y None hist) = t -> snd (compose_core O Y t inv) = Code ts ->
  exists prefix blocks, blocks_of O Y inv blocks /\
    prefix = inv_prefix (hd inv hist) /\
    ts = concat (map (fun b => forest_tokens (emit {| warnings := raised inv; borrowed := 1; s_prefix := prefix |}
                                                   (as_forest Y (block_tokens b)))) blocks).
Proof.
  intros <- H. exists (inv_prefix (hd inv hist)).
  destruct hist as [|i r].
  - cbn [run fst] in H. rewrite compose_core_fresh in H. cbn [snd] in H. apply outcome_code in H as (blocks & Hb & ->).
    exists blocks. auto.
  - rewrite run_fresh in H. cbn [fst] in H. rewrite compose_core_idle in H. cbn [snd] in H.
    apply outcome_code in H as (blocks & Hb & ->). exists blocks. auto.
Qed.

Lemma quiet_code hist inv t ts : covers Y -> raised inv = [] ->
  fst (run O Y None hist) = t -> snd (compose_core O Y t inv) = Code ts ->
  exists blocks, blocks_of O Y inv blocks /\ ts = concat (map block_tokens blocks).
Proof.
  intros Hc Hr Ht H. destruct (code_after_any_history hist inv t ts Ht H) as (p & bs & Hb & _ & ->).
  exists bs. split; auto. f_equal. apply map_ext. intros b. rewrite Hr. apply Hc.
Qed.

Lemma quiet_history hist hist' inv : raised inv = [] ->
  snd (compose_core O Y (fst (run O Y None hist)) inv) = snd (compose_core O Y (fst (run O Y None hist')) inv).
Proof.
  intros Hr.
  assert (E : forall h, exists p, snd (compose_core O Y (fst (run O Y None h)) inv) = outcome p inv).
  { intros [|i r]; [rewrite compose_core_fresh; eexists; reflexivity|].
    rewrite run_fresh. cbn [fst]. rewrite compose_core_idle. eexists; reflexivity. }
  destruct (E hist) as [p ->]. destruct (E hist') as [q ->].
  unfold outcome. destruct (p_ast (inv_parsed inv)) as [[ast|]| |]; auto.
  assert (Ee : forall env, execute O Y env (thread_for p inv) ast = execute O Y env (thread_for q inv) ast).
  { intros env. unfold execute. destruct (expand ast) as [rws| |]; auto. cbn [bind].
    assert (Em : mapM (execute_block_rewrite O Y env (thread_for p inv)) rws = mapM (execute_block_rewrite O Y env (thread_for q inv)) rws).
    { induction rws as [|rw rws IH]; auto. cbn [mapM]. rewrite IH.
      replace (execute_block_rewrite O Y env (thread_for p inv) rw) with (execute_block_rewrite O Y env (thread_for q inv) rw); auto.
      unfold execute_block_rewrite. destruct (make_substitutions O env (fst rw)); auto. cbn [bind].
      unfold substitute. destruct (visit_block _ _ _ _); auto. cbn [bind]. unfold scope_emit, thread_for, emit. cbn [warnings].
      rewrite Hr. reflexivity. }
    rewrite Em. reflexivity. }
  rewrite Ee. reflexivity.
Qed.

(** ** Loop rounds *)
Lemma map_values ps vals : length vals = length ps ->
  map loop_values (map (fun pv : loop_alias * list loop_source_value =>
    {| loop_pattern := fst pv; loop_values := snd pv |}) (combine ps vals)) = vals.
Proof.
  revert vals. induction ps as [|p ps IH]; intros [|v vals] H; try discriminate H; [reflexivity|].
  cbn in *. f_equal. apply IH. lia.
Qed.

(** The rewrite of a choice only looks at the patterns. *)
Lemma loop_items_patterns : forall loops loops' c, map loop_pattern loops = map loop_pattern loops' ->
  loop_items loops c = loop_items loops' c.
Proof.
  induction loops as [|l loops IH]; intros [|l' loops'] [|v c] H; try discriminate H; auto.
  cbn in H. injection H as H1 H2. cbn [loop_items]. rewrite H1, (IH loops' c H2). reflexivity.
Qed.

Lemma map_patterns ps : forall vals, length vals = length ps ->
  map loop_pattern (map (fun pv : loop_alias * list loop_source_value =>
    {| loop_pattern := fst pv; loop_values := snd pv |}) (combine ps vals)) = ps.
Proof.
  induction ps as [|p ps IH]; intros [|v vals] H; try discriminate H; [reflexivity|].
  cbn in *. f_equal. apply IH. lia.
Qed.

Lemma nested_singletons {A} (c : list A) : nested_loops (map (fun v => [v]) c) = [c].
Proof. induction c as [|x c IH]; [reflexivity|]. cbn [map nested_loops flat_map]. rewrite IH. reflexivity. Qed.

Lemma length_choice {A} (vals : list (list A)) c : In c (all_combinations vals) -> length c = length vals.
Proof.
  unfold all_combinations. destruct vals as [|v vals]; [intros []|]. intros H. apply in_nested in H.
  exact (CrossProductProofs.Forall2_length' _ _ _ H).
Qed.

Lemma rewrite_for_round ps spec block vals c : length vals = length ps -> length c = length ps ->
  rewrite_for (loops_over ps vals spec block)
    (map (fun pv => {| loop_pattern := fst pv; loop_values := snd pv |}) (combine ps vals)) c =
  rewrite_for (one_round ps c spec block)
    (map (fun pv => {| loop_pattern := fst pv; loop_values := snd pv |}) (combine ps (map (fun v => [v]) c))) c.
Proof.
  intros H H'. unfold rewrite_for, loops_over, one_round. cbn [ast_spec ast_block].
  erewrite loop_items_patterns; [reflexivity|]. rewrite !map_patterns; rewrite ?map_length; auto.
Qed.

Lemma one_round_expand ps spec block c : ps <> [] -> length c = length ps ->
  expand (one_round ps c spec block) =
  (let! rw := rewrite_for (one_round ps c spec block)
     (map (fun pv => {| loop_pattern := fst pv; loop_values := snd pv |}) (combine ps (map (fun v => [v]) c))) c in Ok [rw]).
Proof.
  intros Hp Hc. unfold one_round, loops_over. erewrite expand_first_error by reflexivity.
  rewrite map_values by (rewrite map_length; auto).
  assert (E : all_combinations (map (fun v => [v]) c) = [c]).
  { unfold all_combinations. destruct c; [destruct ps; [congruence|discriminate Hc]|]. apply (nested_singletons (l :: c)). }
  rewrite E. cbn [mapM]. destruct (rewrite_for _ _ c); reflexivity.
Qed.

Lemma rounds_ok env t ps vals spec block ts : ps <> [] -> length vals = length ps ->
  (execute O Y env t (loops_over ps vals spec block) = Ok ts <->
   exists outs, Forall2 (fun c o => execute O Y env t (one_round ps c spec block) = Ok o) (all_combinations vals) outs /\
     ts = concat outs).
Proof.
  intros Hp Hl. rewrite execute_ok.
  assert (Hx : forall rws, expand (loops_over ps vals spec block) = Ok rws <->
    Forall2 (fun c rw => expand (one_round ps c spec block) = Ok [rw]) (all_combinations vals) rws).
  { intros rws. unfold loops_over at 1. erewrite expand_first_error by reflexivity.
    rewrite map_values by auto. rewrite mapM_Ok.
    assert (Hlen : forall c, In c (all_combinations vals) -> length c = length ps).
    { intros c Hc. rewrite (length_choice _ _ Hc). exact Hl. }
    assert (E : forall c rw, In c (all_combinations vals) ->
      (rewrite_for (loops_over ps vals spec block)
        (map (fun pv => {| loop_pattern := fst pv; loop_values := snd pv |}) (combine ps vals)) c = Ok rw <->
       expand (one_round ps c spec block) = Ok [rw])).
    { intros c rw Hc. rewrite one_round_expand, (rewrite_for_round ps spec block vals c) by auto.
      destruct (rewrite_for _ _ c); cbn [bind]; split; congruence. }
    clear Hlen. revert rws E. induction (all_combinations vals) as [|c cs IH]; intros [|rw rws] E;
      split; intros H; inversion H; subst; constructor.
    - apply E; [left; reflexivity|]. assumption.
    - apply IH; [|assumption]. intros; apply E; right; assumption.
    - apply E; [left; reflexivity|]. assumption.
    - apply IH; [|assumption]. intros; apply E; right; assumption. }
  split.
  - intros (rws & outs & He & Hf & ->). exists outs. split; [|reflexivity]. apply Hx in He.
    clear Hx. revert outs Hf. induction He as [|c rw cs rws Hc He IH]; intros outs Hf; inversion Hf; subst; constructor; auto.
    apply execute_ok. eexists. eexists. split; [exact Hc|]. split; [constructor; [eassumption|constructor]|].
    cbn. rewrite app_nil_r. reflexivity.
  - intros (outs & Hf & ->).
    assert (exists rws outs', Forall2 (fun c rw => expand (one_round ps c spec block) = Ok [rw]) (all_combinations vals) rws /\
      Forall2 (fun rw o => execute_block_rewrite O Y env t rw = Ok o) rws outs' /\ concat outs = concat outs') as (rws & outs' & H1 & H2 & H3).
    { clear Hx. assert (Hlen : forall c, In c (all_combinations vals) -> length c = length ps).
      { intros c Hc. rewrite (length_choice _ _ Hc). exact Hl. }
      induction Hf as [|c o cs outs Ho Hf IH]; [exists [], []; repeat constructor|].
      destruct IH as (rws & outs' & H1 & H2 & H3); [intros; apply Hlen; right; assumption|].
      apply execute_ok in Ho as (rws1 & outs1 & He & Hf1 & ->).
      pose proof He as He'. rewrite one_round_expand in He'; [|assumption|apply Hlen; left; reflexivity].
      destruct (rewrite_for _ _ c) as [rw| |]; try discriminate He'. injection He' as <-.
      inversion Hf1 as [|? o' ? ? Ho' Hnil]; subst. inversion Hnil; subst.
      exists (rw :: rws), (o' :: outs'). split; [constructor; auto|]. split; [constructor; auto|].
      cbn. rewrite app_nil_r, H3. reflexivity. }
    exists rws, outs'. split; [apply Hx; exact H1|]. split; [exact H2|]. exact H3.
Qed.

(** More values of the outermost loop: the outputs are put one after the other. *)
Lemma outer_values env t p ps v1 v2 vals spec block ts : length vals = length ps ->
  (execute O Y env t (loops_over (p :: ps) ((v1 ++ v2) :: vals) spec block) = Ok ts <->
   exists t1 t2, execute O Y env t (loops_over (p :: ps) (v1 :: vals) spec block) = Ok t1 /\
     execute O Y env t (loops_over (p :: ps) (v2 :: vals) spec block) = Ok t2 /\ ts = t1 ++ t2).
Proof.
  intros Hl.
  assert (E : all_combinations ((v1 ++ v2) :: vals) = all_combinations (v1 :: vals) ++ all_combinations (v2 :: vals)).
  { unfold all_combinations. cbn [nested_loops]. apply flat_map_app. }
  rewrite rounds_ok by (cbn; congruence). rewrite E. split.
  - intros (outs & H & ->). apply Forall2_app_inv_l in H as (o1 & o2 & H1 & H2 & ->).
    exists (concat o1), (concat o2). rewrite !rounds_ok by (cbn; congruence). rewrite concat_app. eauto 8.
  - intros (t1 & t2 & H1 & H2 & ->). rewrite rounds_ok in H1, H2 by (cbn; congruence).
    destruct H1 as (o1 & H1 & ->). destruct H2 as (o2 & H2 & ->).
    exists (o1 ++ o2). rewrite concat_app. split; [apply Forall2_app; auto|reflexivity].
Qed.
End Facts.
