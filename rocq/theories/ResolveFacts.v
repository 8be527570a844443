(** Lemmas behind PropertiesResolve.v: the elaboration facts transported to the model. *)
From Coq Require Import String Permutation.
From Verif Require Import Base BaseFacts Token Types SpecTypes TypesProofs Values Ast Env Resolve Eval SpecElab SpecScope SpecPrograms SpecCalls ElabProofs ElabFacts BuiltinFacts CallFacts MoreCallFacts Concrete.
Open Scope list_scope.

Lemma resolve_items_app env pre : forall sc post,
  resolve_items env sc (pre ++ post) = let! sc' := resolve_items env sc pre in resolve_items env sc' post.
Proof.
  induction pre as [|it pre IH]; intros sc post; [reflexivity|]. cbn [app resolve_items].
  destruct (resolve_item env sc it); [apply IH|reflexivity|reflexivity].
Qed.

Lemma item_ids_app a b : item_ids (a ++ b) = item_ids a ++ item_ids b.
Proof. apply flat_map_app. Qed.

(** The scope after a resolved prefix. *)
Lemma resolve_items_scope env items : forall G sc,
  alias_ok G sc -> NoDup (item_ids items) -> apart (item_ids items) sc -> fresh (item_ids items) sc ->
  forall tis sc', elab_items env G items = Ok tis -> resolve_items env sc items = Ok sc' ->
  alias_ok (tenv_of tis ++ G) sc' /\
  (forall a, In a (sc_aliases sc') -> In a (sc_aliases sc) \/ In (snd a) (item_ids items)) /\
  (forall id, ~ In id (item_ids items) -> same_at sc sc' id).
Proof.
  induction items as [|[name e] items IH]; intros G sc Hal Hnd Hap Hfr tis sc' He Hr; cbn [elab_items resolve_items] in *.
  - injection He as <-. injection Hr as <-. repeat split; auto.
  - unfold item_ids in Hnd, Hap, Hfr. cbn [flat_map snd] in Hnd, Hap, Hfr. fold (item_ids items) in Hnd, Hap, Hfr.
    apply NoDup_app_disj in Hnd as (Hnd1 & Hnd2 & Hdisj). unfold resolve_item in Hr. cbn [fst snd] in Hr.
    pose proof (resolve_expr_ok env G e sc None Hal Hnd1 (apart_incl _ _ _ (incl_appl _ (incl_refl _)) Hap)
                  (fresh_incl _ _ _ (incl_appl _ (incl_refl _)) Hfr)) as H.
    destruct (elab env G e None) as [[te c]|er]; [|discriminate].
    destruct H as (sc1 & Hr1 & Hf & Henc & _ & Hty). rewrite Hr1 in Hr. cbn [bind] in Hr.
    assert (Hal1 : alias_ok G sc1) by (eapply alias_ok_frame; [exact Hal|exact Hf|]; eapply apart_incl; [|exact Hap]; apply incl_appl; apply incl_refl).
    pose proof (assoc_alias_ok G sc1 name Hal1) as Has. unfold try_add_name in Hr.
    destruct (assoc_str name G); destruct (assoc_str name (sc_aliases sc1)); try contradiction; [discriminate|].
    cbn [bind] in Hr. apply bind_Ok in He as (t & He & E). injection E as <-.
    match type of Hr with resolve_items env ?s items = _ => set (sc2 := s) in * end.
    assert (Hal2 : alias_ok ((name, target_of te) :: G) sc2).
    { unfold alias_ok, sc2. cbn. constructor; [split; [reflexivity|exact Hty]|]. exact Hal1. }
    assert (Hap2 : apart (item_ids items) sc2).
    { intros a [<-|Ha]; cbn.
      - apply Hdisj. apply expr_id_in.
      - destruct Hf as [A _]. rewrite A in Ha. intros Hin. apply (Hap a Ha). apply in_or_app. auto. }
    assert (Hfr2 : fresh (item_ids items) sc2).
    { intros id Hid. unfold sc2. cbn. destruct Hf as [_ F]. destruct (F id) as [-> _].
      - intros Hi. exact (Hdisj id Hi Hid).
      - apply Hfr. apply in_or_app. auto. }
    destruct (IH _ _ Hal2 Hnd2 Hap2 Hfr2 _ _ He Hr) as (H1 & H2 & H3). split; [|split].
    + unfold tenv_of. cbn [map rev fst snd]. rewrite <- app_assoc. exact H1.
    + intros a Ha. destruct (H2 a Ha) as [Hin|Hin].
      * destruct Hin as [<-|Hin].
        -- right. cbn. apply in_or_app. left. apply expr_id_in.
        -- left. cbn in Hin. destruct Hf as [<- _]. exact Hin.
      * right. unfold item_ids. cbn [flat_map]. apply in_or_app. auto.
    + intros id H. unfold item_ids in H. cbn [flat_map snd] in H. fold (item_ids items) in H.
      destruct Hf as [_ F]. destruct (F id) as [F1 F2]; [intros Hi; apply H; apply in_or_app; auto|].
      destruct (H3 id) as [G1 G2]; [intros Hi; apply H; apply in_or_app; auto|]. unfold sc2 in G1, G2. cbn in G1, G2.
      split; congruence.
Qed.

Lemma ready_after env pre a e sc :
  NoDup (item_ids (pre ++ [(a, e)])) -> resolve_items env empty_scope pre = Ok sc ->
  exists tis, elab_items env [] pre = Ok tis /\ ready (tenv_of tis) sc e.
Proof.
  intros Hnd Hr. rewrite item_ids_app in Hnd. apply NoDup_app_disj in Hnd as (Hnd1 & Hnd2 & Hdisj).
  unfold item_ids at 1 in Hnd2. cbn in Hnd2. rewrite app_nil_r in Hnd2.
  assert (Hap0 : apart (item_ids pre) empty_scope) by (intros x []).
  assert (Hfr0 : fresh (item_ids pre) empty_scope) by (intros x _; reflexivity).
  pose proof (resolve_items_ok env pre [] empty_scope (Forall2_nil _) Hnd1 Hap0 Hfr0) as H.
  destruct (elab_items env [] pre) as [tis|er|p] eqn:Ee; [|congruence|contradiction].
  exists tis. split; [reflexivity|].
  destruct (resolve_items_scope env pre [] empty_scope (Forall2_nil _) Hnd1 Hap0 Hfr0 tis sc Ee Hr) as (H1 & H2 & H3).
  rewrite app_nil_r in H1.
  assert (Hd : forall id, In id (ids e) -> ~ In id (item_ids pre)).
  { intros id Hi Hp. apply (Hdisj id Hp). unfold item_ids. cbn. rewrite app_nil_r. exact Hi. }
  repeat split; try assumption.
  - intros x Hx Hin. destruct (H2 x Hx) as [[]|Hp]. exact (Hd _ Hin Hp).
  - intros id Hid. destruct (H3 id (Hd id Hid)) as [-> _]. reflexivity.
Qed.

(** ** C06 *)
Lemma redefined_iff O seed n spec x :
  NoDup (item_ids (spec_items spec)) ->
  (make_substitutions O (new_initialized O seed n) spec = Err (RedefinedNameError x) <->
   exists pre e post sc sc',
     spec_items spec = pre ++ (x, e) :: post /\ In x (map fst pre) /\
     resolve_items (new_initialized O seed n) empty_scope pre = Ok sc /\
     resolve_expr (new_initialized O seed n) e sc None = Ok sc').
Proof.
  intros Hnd. set (env := new_initialized O seed n). rewrite make_substitutions_spec by exact Hnd.
  transitivity (elab_items env [] (spec_items spec) = Err (RedefinedNameError x)).
  - unfold bindings. destruct (elab_items env [] (spec_items spec)) as [tis|er|p] eqn:Ee; cbn [bind].
    + split; [|discriminate]. intros H. change (e_seed env) with seed in H.
      pose proof (items_sound O seed n (spec_items spec) [] [] tis (Forall2_nil _) Ee) as Hs. rewrite H in Hs.
      destruct Hs as [Hs|Hs]; discriminate.
    + split; intros H; exact H || (injection H as ->; reflexivity).
    + split; discriminate.
  - rewrite elab_items_redefined. split.
    + intros (pre & e & post & tis & te & Heq & H1 & H2 & H3). cbn in H2.
      rewrite Heq in Hnd. change ((x, e) :: post) with ([(x, e)] ++ post) in Hnd. rewrite app_assoc, item_ids_app in Hnd.
      apply NoDup_app_disj in Hnd as (Hnd & _ & _).
      assert (Hr : exists sc, resolve_items env empty_scope pre = Ok sc).
      { rewrite item_ids_app in Hnd. apply NoDup_app_disj in Hnd as (Hnd1 & _ & _).
        pose proof (resolve_items_ok env pre [] empty_scope (Forall2_nil _) Hnd1 (fun a (Ha : In a []) => match Ha with end) (fun id _ => eq_refl)) as H.
        rewrite H1 in H. destruct H as (sc & H & _). eauto. }
      destruct Hr as [sc Hr]. destruct (ready_after env pre x e sc Hnd Hr) as (tis' & He & Hal & Hn & Hap & Hfr).
      rewrite H1 in He. injection He as <-. rewrite app_nil_r in H3.
      pose proof (resolve_expr_ok env _ e sc None Hal Hn Hap Hfr) as H. rewrite H3 in H. destruct te as [te c].
      destruct H as (sc' & H & _). exists pre, e, post, sc, sc'. auto.
    + intros (pre & e & post & sc & sc' & Heq & Hin & Hr & Hre).
      rewrite Heq in Hnd. change ((x, e) :: post) with ([(x, e)] ++ post) in Hnd. rewrite app_assoc, item_ids_app in Hnd.
      apply NoDup_app_disj in Hnd as (Hnd & _ & _).
      destruct (ready_after env pre x e sc Hnd Hr) as (tis & He & Hal & Hn & Hap & Hfr).
      pose proof (resolve_expr_ok env _ e sc None Hal Hn Hap Hfr) as H.
      destruct (elab env (tenv_of tis) e None) as [te|er] eqn:Ee; [|destruct H; congruence].
      exists pre, e, post, tis, te. rewrite app_nil_r. auto.
Qed.

Lemma success_distinct O env spec bs :
  NoDup (item_ids (spec_items spec)) -> make_substitutions O env spec = Ok bs ->
  NoDup (map fst (spec_items spec)) /\ map fst bs = map fst (spec_items spec).
Proof.
  intros Hnd H. rewrite make_substitutions_spec in H by exact Hnd. apply bind_Ok in H as (tis & H1 & H2).
  split; [apply (elab_items_NoDup _ _ _ _ H1)|].
  rewrite (run_items_names _ _ _ _ _ H2). eapply elab_items_names; eassumption.
Qed.

Lemma distinct_never O seed n spec x :
  NoDup (item_ids (spec_items spec)) -> NoDup (map fst (spec_items spec)) ->
  make_substitutions O (new_initialized O seed n) spec <> Err (RedefinedNameError x).
Proof.
  intros Hnd Hd H. apply redefined_iff in H as (pre & e & post & _ & _ & Heq & Hin & _); [|exact Hnd].
  rewrite Heq, map_app in Hd. cbn in Hd. apply NoDup_remove_2 in Hd. apply Hd. apply in_or_app. auto.
Qed.

(** ** C07 *)
Lemma spec_ids_prefix (pre post : list spec_item) : NoDup (item_ids (pre ++ post)) -> NoDup (item_ids pre).
Proof. rewrite item_ids_app. intros H. apply NoDup_app_disj in H. apply H. Qed.

Lemma prefix_stable O env c c' pre post bs :
  NoDup (item_ids (pre ++ post)) ->
  make_substitutions O env {| spec_items := pre ++ post; is_comma_used := c |} = Ok bs ->
  make_substitutions O env {| spec_items := pre; is_comma_used := c' |} = Ok (firstn (List.length pre) bs).
Proof.
  intros Hnd H. rewrite make_substitutions_spec in * by (try exact Hnd; eapply spec_ids_prefix; exact Hnd).
  eapply bindings_app; exact H.
Qed.

Lemma unmentioned O env c c' pre a e bs v :
  NoDup (item_ids (pre ++ [(a, e)])) ->
  (forall x, In x (mentions e) -> ~ In x (map fst pre)) ->
  make_substitutions O env {| spec_items := pre ++ [(a, e)]; is_comma_used := c |} = Ok (bs ++ [(a, v)]) ->
  make_substitutions O env {| spec_items := [(a, e)]; is_comma_used := c' |} = Ok [(a, v)].
Proof.
  intros Hnd Hm H.
  assert (Hnd' : NoDup (item_ids [(a, e)])) by (rewrite item_ids_app in Hnd; apply NoDup_app_disj in Hnd; apply Hnd).
  rewrite make_substitutions_spec in * by assumption. eapply bindings_unmentioned; eassumption.
Qed.

(** ** C08 *)
Lemma call_resolution env G sc id name args raw ex fs :
  ready G sc (ECall id name args raw) -> get_func_variants env name = Some fs -> NoDup (map f_id fs) ->
  let accepts f := elab_func f (map (elab env G) args) (option_map snd raw) ex in
  (forall sc', resolve_expr env (ECall id name args raw) sc ex = Ok sc' ->
    exists m tes, assoc_N id (sc_calls sc') = Some m /\ In (cm_func m) fs /\
      accepts (cm_func m) = Some (cm_cost m, tes) /\
      forall g d tes', In g fs -> accepts g = Some (d, tes') -> g = cm_func m \/ better (cm_cost m, cm_func m) (d, g)) /\
  (forall er, resolve_expr env (ECall id name args raw) sc ex = Err er <->
    er = SignatureError name /\ forall f, In f fs -> accepts f = None).
Proof.
  intros (Hal & Hn & Hap & Hfr) Hg Hd accepts.
  pose proof (resolve_expr_ok env G _ sc ex Hal Hn Hap Hfr) as H. cbn [elab] in H. rewrite Hg in H.
  destruct (best (viable fs (map (elab env G) args) (option_map snd raw) ex)) as [[[c f] tes]|] eqn:Eb.
  - destruct H as (sc' & Hr & _ & Henc & Hcost & _). split.
    + intros sc'' Hr'. rewrite Hr in Hr'. injection Hr' as <-. cbn [encodes] in Henc.
      destruct Henc as (as' & c' & Hm & _). eexists. exists tes. split; [exact Hm|]. cbn [cm_func cm_cost].
      cbn in Hcost. rewrite Hm in Hcost. injection Hcost as ->. apply best_unique in Eb as (H1 & H2 & H3); [|exact Hd]. auto.
    + intros er. rewrite Hr. split; [discriminate|]. intros [_ Hno].
      apply best_in, viable_in in Eb as [Hf He]. unfold accepts in Hno. rewrite (Hno f Hf) in He. discriminate.
  - destruct H as [Hr _]. split; [intros sc' Hr'; congruence|]. intros er. rewrite Hr.
    pose proof (proj1 (best_none_iff _ _ _ _) Eb) as Eb2. split; [intros E; injection E as <-; auto|intros [-> _]; reflexivity].
Qed.

(** ** C09 *)
Lemma number_variants_shift name k vs : forall m,
  number_variants name (m + k) vs = map (renumber_func (fun i => (i + k)%N)) (number_variants name m vs).
Proof.
  induction vs as [|[[a o] im] vs IH]; intros m; [reflexivity|]. cbn [number_variants map].
  rewrite <- N.add_succ_l, IH. reflexivity.
Qed.
Lemma number_rows_shift k rows : forall m,
  number_rows (m + k) rows = map (fun r => (fst r, map (renumber_func (fun i => (i + k)%N)) (snd r))) (number_rows m rows).
Proof.
  induction rows as [|[name vs] rows IH]; intros m; [reflexivity|]. cbn [number_rows map fst snd].
  rewrite number_variants_shift. f_equal. rewrite <- IH. f_equal. lia.
Qed.

Lemma invocations_agree O seed n n' spec spec' :
  NoDup (item_ids (spec_items spec)) -> NoDup (item_ids (spec_items spec')) ->
  erase_items (spec_items spec) = erase_items (spec_items spec') ->
  make_substitutions O (new_initialized O seed n) spec = make_substitutions O (new_initialized O seed n') spec'.
Proof.
  assert (Hz : forall m sp sp', NoDup (item_ids (spec_items sp)) -> NoDup (item_ids (spec_items sp')) ->
    erase_items (spec_items sp) = erase_items (spec_items sp') ->
    make_substitutions O (new_initialized O seed 0) sp = make_substitutions O (new_initialized O seed m) sp').
  { intros m sp sp' H1 H2 He.
    replace (new_initialized O seed m) with (renumber (fun i => (i + m)%N) (new_initialized O seed 0)).
    - apply make_subst_renumber; try assumption. intros a b. lia.
    - unfold new_initialized, renumber. cbn [e_seed e_funcs]. rewrite <- number_rows_shift. reflexivity. }
  intros H1 H2 He. rewrite <- (Hz n spec spec H1 H1 eq_refl). apply Hz; assumption.
Qed.

(** ** C10 *)
Lemma types_only env G G' sc sc' e e' ex :
  ready G sc e -> ready G' sc' e' -> similar G G' e e' ->
  match resolve_expr env e sc ex, resolve_expr env e' sc' ex with
  | Ok s, Ok s' => recorded_cost s e = recorded_cost s' e' /\
                   exists te te', encodes s te e /\ encodes s' te' e' /\ same_plan te te'
  | Err a, Err b => a = b
  | _, _ => False
  end.
Proof.
  intros (Hal & Hn & Hap & Hfr) (Hal' & Hn' & Hap' & Hfr') Hs.
  pose proof (resolve_expr_ok env G e sc ex Hal Hn Hap Hfr) as H.
  pose proof (resolve_expr_ok env G' e' sc' ex Hal' Hn' Hap' Hfr') as H'.
  pose proof (similar_plan env G G' e e' ex Hs) as Hp.
  destruct (elab env G e ex) as [[te c]|er], (elab env G' e' ex) as [[te' c']|er']; try contradiction.
  - destruct H as (s & -> & _ & He & Hc & _), H' as (s' & -> & _ & He' & Hc' & _). destruct Hp as [Hp ->].
    split; [congruence|]. eauto.
  - destruct H as [-> _], H' as [-> _]. exact Hp.
Qed.

Lemma similar_items_elab env G items items' : similar_items G items items' ->
  match elab_items env G items, elab_items env G items' with
  | Ok tis, Ok tis' => Forall2 (fun a b => fst a = fst b /\ same_plan (snd a) (snd b)) tis tis'
  | Err a, Err b => a = b
  | _, _ => False
  end.
Proof.
  intros H. induction H as [G|G a e e' items items' He Hi IH]; cbn [elab_items]; [constructor|].
  pose proof (similar_plan env G G e e' None He) as Hp.
  destruct (elab env G e None) as [[te c]|er], (elab env G e' None) as [[te' c']|er']; try contradiction; [|exact Hp].
  destruct Hp as [Hp _]. destruct (assoc_str a G); [reflexivity|].
  assert (Ht : target_of te = target_of te') by (inversion Hp; reflexivity). rewrite <- Ht.
  specialize (IH (target_of te)). destruct (elab_items env _ items), (elab_items env _ items'); try contradiction; cbn [bind]; [|exact IH].
  constructor; [|exact IH]. auto.
Qed.

Lemma types_only_items env items items' :
  NoDup (item_ids items) -> NoDup (item_ids items') -> similar_items [] items items' ->
  match resolve_items env empty_scope items, resolve_items env empty_scope items' with
  | Ok s, Ok s' => exists tis tis',
      Forall2 (fun it ti => fst it = fst ti /\ encodes s (snd ti) (snd it)) items tis /\
      Forall2 (fun it ti => fst it = fst ti /\ encodes s' (snd ti) (snd it)) items' tis' /\
      Forall2 (fun a b => fst a = fst b /\ same_plan (snd a) (snd b)) tis tis'
  | Err a, Err b => a = b
  | _, _ => False
  end.
Proof.
  intros Hn Hn' Hs. pose proof (similar_items_elab env [] items items' Hs) as Hp.
  pose proof (resolve_items_ok env items [] empty_scope (Forall2_nil _) Hn (fun a (Ha : In a []) => match Ha with end) (fun id _ => eq_refl)) as H.
  pose proof (resolve_items_ok env items' [] empty_scope (Forall2_nil _) Hn' (fun a (Ha : In a []) => match Ha with end) (fun id _ => eq_refl)) as H'.
  destruct (elab_items env [] items) as [tis|er|p], (elab_items env [] items') as [tis'|er'|p']; try contradiction.
  - destruct H as (s & -> & _ & HF), H' as (s' & -> & _ & HF'). exists tis, tis'. auto.
  - rewrite H, H'. exact Hp.
Qed.

(** ** C12 *)
Lemma well_typed_evaluation O seed n spec sc :
  NoDup (item_ids (spec_items spec)) ->
  resolve_items (new_initialized O seed n) empty_scope (spec_items spec) = Ok sc ->
  match make_substitutions O (new_initialized O seed n) spec with
  | Ok bs => Forall2 (fun it b => fst it = fst b /\
               exists te, encodes sc te (snd it) /\ type_of (snd b) = target_of te) (spec_items spec) bs
  | Err e => e = TypeError \/ e = EvalError
  | Panic p => p = PIdentNew \/ p = PLitNew
  end.
Proof.
  intros Hnd Hr. set (env := new_initialized O seed n) in *.
  pose proof (resolve_items_ok env (spec_items spec) [] empty_scope (Forall2_nil _) Hnd (fun a (Ha : In a []) => match Ha with end) (fun id _ => eq_refl)) as H.
  rewrite make_substitutions_spec by exact Hnd. unfold bindings.
  destruct (elab_items env [] (spec_items spec)) as [tis|er|p] eqn:Ee; [|congruence|contradiction].
  cbn [bind]. change (e_seed env) with seed. destruct H as (sc' & Hr' & _ & HF). rewrite Hr in Hr'. injection Hr' as <-.
  pose proof (items_sound O seed n (spec_items spec) [] [] tis (Forall2_nil _) Ee) as Hs.
  destruct (run_items O seed [] tis) as [bs| |]; [|exact Hs|exact Hs].
  clear - HF Hs. revert bs Hs. induction HF as [|[x e] [y te] items tis [H1 H2] HF IH]; intros bs Hs; inversion Hs as [|? [z v] ? ? [H3 H4] Hs']; subst; constructor; cbn in *; [|auto].
  split; [congruence|]. exists te. auto.
Qed.

(** ** C13, C35, C36: the last definition *)
Lemma bindings_last O seed n pre a e bs (m : res value) :
  NoDup (item_ids (pre ++ [(a, e)])) -> ~ In a (map fst pre) ->
  (forall G, ctx_ok G (rev bs) -> NoDup (map fst bs) ->
    match elab (new_initialized O seed n) G e None with
    | inr er => Err er
    | inl (te, _) => run O seed (rev bs) te
    end = m) ->
  forall c c', make_substitutions O (new_initialized O seed n) {| spec_items := pre; is_comma_used := c |} = Ok bs ->
  make_substitutions O (new_initialized O seed n) {| spec_items := pre ++ [(a, e)]; is_comma_used := c' |} =
  let! v := m in Ok (bs ++ [(a, v)]).
Proof.
  intros Hnd Ha Hm c c' H.
  pose proof (success_distinct O _ {| spec_items := pre; is_comma_used := c |} bs (spec_ids_prefix _ _ Hnd) H) as [Hd Hb]. cbn in Hd, Hb.
  rewrite make_substitutions_spec in H by (eapply spec_ids_prefix; exact Hnd). rewrite make_substitutions_spec by exact Hnd. cbn [spec_items] in *.
  destruct (bindings_snoc O seed n pre a e bs H Ha) as (G & Hc & Heq). etransitivity; [exact Heq|].
  rewrite <- (Hm G Hc) by (rewrite Hb; exact Hd).
  destruct (elab (new_initialized O seed n) G e None) as [[te cc]|er]; reflexivity.
Qed.

Lemma concat_call O seed n pre a id leaves raw bs c c' :
  NoDup (item_ids (pre ++ [(a, ECall id (txt "concat") (plain leaves) raw)])) -> ~ In a (map fst pre) ->
  make_substitutions O (new_initialized O seed n) {| spec_items := pre; is_comma_used := c |} = Ok bs ->
  make_substitutions O (new_initialized O seed n)
    {| spec_items := pre ++ [(a, ECall id (txt "concat") (plain leaves) raw)]; is_comma_used := c' |} =
  let! v := concat_meaning O (map (fun l => lookup_value bs (snd l)) leaves) in Ok (bs ++ [(a, v)]).
Proof.
  intros Hnd Ha. apply bindings_last; [exact Hnd|exact Ha|]. intros G Hc Hd. apply concat_run; assumption.
Qed.

Lemma hash_call O seed n pre a id lid v raw bs c c' :
  NoDup (item_ids (pre ++ [(a, ECall id (txt "hash") (plain [(lid, v)]) raw)])) -> ~ In a (map fst pre) ->
  make_substitutions O (new_initialized O seed n) {| spec_items := pre; is_comma_used := c |} = Ok bs ->
  make_substitutions O (new_initialized O seed n)
    {| spec_items := pre ++ [(a, ECall id (txt "hash") (plain [(lid, v)]) raw)]; is_comma_used := c' |} =
  let! w := hash_meaning O seed (lookup_value bs v) in Ok (bs ++ [(a, w)]).
Proof.
  intros Hnd Ha. apply bindings_last; [exact Hnd|exact Ha|]. intros G Hc Hd. apply hash_run; assumption.
Qed.

Lemma raw_call O seed n pre a id args rid ts bs c c' :
  NoDup (item_ids (pre ++ [(a, ECall id (txt "raw") args (Some (rid, ts)))])) -> ~ In a (map fst pre) ->
  make_substitutions O (new_initialized O seed n) {| spec_items := pre; is_comma_used := c |} = Ok bs ->
  make_substitutions O (new_initialized O seed n)
    {| spec_items := pre ++ [(a, ECall id (txt "raw") args (Some (rid, ts)))]; is_comma_used := c' |} =
  Ok (bs ++ [(a, VTokens ts)]).
Proof.
  intros Hnd Ha H. rewrite (bindings_last O seed n pre a _ bs (Ok (VTokens ts)) Hnd Ha) with (c := c); [reflexivity| |exact H].
  intros G Hc Hd. apply raw_run.
Qed.

Lemma cast_raw_call O seed n pre a t id id' args rid ts raw bs c c' :
  (forall t', t <> TyVariadic t') -> t <> TyRaw ->
  let e := ECall id (cast_name t) [ECall id' (txt "raw") args (Some (rid, ts))] raw in
  NoDup (item_ids (pre ++ [(a, e)])) -> ~ In a (map fst pre) ->
  make_substitutions O (new_initialized O seed n) {| spec_items := pre; is_comma_used := c |} = Ok bs ->
  make_substitutions O (new_initialized O seed n) {| spec_items := pre ++ [(a, e)]; is_comma_used := c' |} =
  let! v := try_cast O (VTokens ts) t in Ok (bs ++ [(a, v)]).
Proof.
  intros Hv Hr e Hnd Ha. apply bindings_last; [exact Hnd|exact Ha|]. intros G Hc Hd. eapply cast_raw_run; eauto.
Qed.

(** ** C14 *)
Lemma cast_concat_call O seed n pre a t id id' l l' rest raw raw' bs c c' :
  t <> TyRaw -> t <> TyTokens -> (forall t', t <> TyVariadic t') ->
  let e := ECall id (cast_name t) [ECall id' (txt "concat") (plain (l :: l' :: rest)) raw'] raw in
  NoDup (item_ids (pre ++ [(a, e)])) -> ~ In a (map fst pre) ->
  make_substitutions O (new_initialized O seed n) {| spec_items := pre; is_comma_used := c |} = Ok bs ->
  let vs := map (fun l => lookup_value bs (snd l)) (l' :: rest) in
  type_of (lookup_value bs (snd l)) = TyIdent -> existsb (fun v => negb (ty_eqb TyIdent (type_of v))) vs = true ->
  make_substitutions O (new_initialized O seed n) {| spec_items := pre ++ [(a, e)]; is_comma_used := c' |} =
  match parse_str_ident O (List.concat (map (text_of O) (lookup_value bs (snd l) :: vs))) with
  | None => Err EvalError
  | Some z => let! v := try_cast O (VTokens [TIdent z]) t in Ok (bs ++ [(a, v)])
  end.
Proof.
  intros Hr Ht Hv e Hnd Ha H vs Hl Hmix.
  rewrite (bindings_last O seed n pre a e bs
    (match parse_str_ident O (List.concat (map (text_of O) (lookup_value bs (snd l) :: vs))) with
     | None => Err EvalError | Some z => try_cast O (VTokens [TIdent z]) t end) Hnd Ha) with (c := c); [|  |exact H].
  - destruct (parse_str_ident O _); reflexivity.
  - intros G Hc Hd. destruct (run_leaf_same O seed G bs (snd l) Hc Hd) as [_ Hty]. rewrite Hl in Hty.
    destruct (concat_as_tokens O seed n G bs id' raw' l l' rest Hc Hd (eq_sym Hty)) as (te & cc & He & Hrun).
    { rewrite <- (values_types O seed G bs (l' :: rest) Hc Hd). unfold values. fold vs.
      clear - Hmix. induction vs as [|v vs IH]; [discriminate|]. cbn [map forallb existsb] in *.
      destruct (ty_eqb TyIdent (type_of v)); cbn in *; [apply IH; exact Hmix|reflexivity]. }
    unfold e. rewrite (cast_of_run O seed n G (rev bs) t id raw _ te cc Hv Hr Ht He), Hrun.
    unfold joined, values. cbn [map]. fold vs. destruct (parse_str_ident O _); reflexivity.
Qed.

Lemma cast_token_concat_call O seed n pre a t id id' id2 l rest raw raw' raw2 bs c c' :
  t <> TyRaw -> t <> TyTokens -> (forall t', t <> TyVariadic t') ->
  let e := ECall id (cast_name t)
             [ECall id' (txt "concat") (ECall id2 (txt "to_tokens") (plain [l]) raw2 :: plain rest) raw'] raw in
  NoDup (item_ids (pre ++ [(a, e)])) -> ~ In a (map fst pre) ->
  make_substitutions O (new_initialized O seed n) {| spec_items := pre; is_comma_used := c |} = Ok bs ->
  make_substitutions O (new_initialized O seed n) {| spec_items := pre ++ [(a, e)]; is_comma_used := c' |} =
  let! v := try_cast O (VTokens (List.concat (map (fun l => to_tokens (lookup_value bs (snd l))) (l :: rest)))) t in
  Ok (bs ++ [(a, v)]).
Proof.
  intros Hr Ht Hv e Hnd Ha. apply bindings_last; [exact Hnd|exact Ha|]. intros G Hc Hd.
  unfold e. rewrite (cast_of_token_concat O seed n G bs t id id' id2 raw raw' raw2 l rest Hv Hr Ht Hc Hd).
  unfold values. rewrite map_map. reflexivity.
Qed.

(** ** Corollaries *)
Lemma plain_call O seed n pre a id v bs c c' :
  NoDup (item_ids (pre ++ [(a, EValue id v)])) -> ~ In a (map fst pre) ->
  make_substitutions O (new_initialized O seed n) {| spec_items := pre; is_comma_used := c |} = Ok bs ->
  make_substitutions O (new_initialized O seed n)
    {| spec_items := pre ++ [(a, EValue id v)]; is_comma_used := c' |} =
  Ok (bs ++ [(a, lookup_value bs v)]).
Proof.
  intros Hnd Ha H. rewrite (bindings_last O seed n pre a _ bs (Ok (lookup_value bs v)) Hnd Ha) with (c := c); [reflexivity| |exact H].
  intros G Hc Hd. cbn [elab]. rewrite cost_same. destruct (run_leaf_same O seed G bs v Hc Hd) as [Hr _]. exact Hr.
Qed.

Lemma number_variants_ids name vs : forall m, Forall (fun f => (m <= f_id f)%N) (number_variants name m vs) /\
  NoDup (map f_id (number_variants name m vs)).
Proof.
  induction vs as [|[[a o] im] vs IH]; intros m; cbn; [split; constructor|].
  destruct (IH (N.succ m)) as [H1 H2]. split.
  - constructor; [cbn; lia|]. eapply Forall_impl; [|exact H1]. cbn. intros f Hf. lia.
  - constructor; [|exact H2]. intros Hin. apply in_map_iff in Hin as (f & Hf & Hi). rewrite Forall_forall in H1.
    specialize (H1 f Hi). cbn in *. lia.
Qed.
Lemma builtin_ids O seed n : distinct_ids (new_initialized O seed n).
Proof.
  unfold distinct_ids, new_initialized. cbn [e_funcs]. generalize (table O). intros rows. revert n.
  induction rows as [|[name vs] rows IH]; intros n; cbn [number_rows]; constructor; [|apply IH].
  apply number_variants_ids.
Qed.

Lemma leaf_coercion env G sc id v ex :
  ready G sc (EValue id v) ->
  let target := match ex with Some t => t | None => static_type G v end in
  match resolve_expr env (EValue id v) sc ex with
  | Ok sc' => exists c, assoc_N id (sc_values sc') = Some {| vm_target := target; vm_cost := c |} /\
                        coerces_param (static_type G v) target c
  | Err er => er = TypeError /\ forall c, ~ coerces_param (static_type G v) target c
  | Panic _ => False
  end.
Proof.
  intros (Hal & Hn & Hap & Hfr) target.
  pose proof (resolve_expr_ok env G _ sc ex Hal Hn Hap Hfr) as H. cbn [elab] in H. fold target in H.
  destruct (coercion_cost (static_type G v) target) as [c|] eqn:Ec.
  - destruct H as (sc' & -> & _ & He & Hc & _). cbn [encodes] in He. exists c. split; [|apply cost_iff; exact Ec].
    cbn [recorded_cost] in Hc. destruct He as (_ & c' & He). rewrite He in *. cbn in Hc. congruence.
  - destruct H as [-> _]. split; [reflexivity|]. intros c Hc. apply cost_iff in Hc. congruence.
Qed.

Lemma hash_shape O seed v w : hash_meaning O seed v = Ok w ->
  exists d, is_numeral d /\ (numeral_value d = hash64 O seed (match v with VLitStr x _ => x | VIdent x => x | _ => text_of O v end)) /\
  w = match v with VLitStr _ _ => VLitStr d [] | _ => VIdent (txt "__" ++ d) end.
Proof.
  intros H. exists (decimal (hash64 O seed (match v with VLitStr x _ => x | VIdent x => x | _ => text_of O v end))).
  split; [apply decimal_numeral|]. split; [apply decimal_value|].
  destruct v; cbn in H; try (injection H as <-; reflexivity);
    unfold identifier in H; destruct (ident_ok O _) eqn:Ei in H; try discriminate; injection H as <-; reflexivity.
Qed.

Lemma hash_never_errs O seed v e : hash_meaning O seed v <> Err e.
Proof. destruct v; cbn; unfold identifier; try destruct (ident_ok O _); discriminate. Qed.

Lemma conversions_wrong : exists e1 e2,
  e1 = ECall 1 (txt "to_path") [ECall 2 (txt "concat") (plain
         [(3%N, VIdent (txt "std")); (4%N, VTokens colons); (5%N, VIdent (txt "vec"))]) None] None /\
  e2 = ECall 1 (txt "to_type") [ECall 2 (txt "concat") (plain
         [(3%N, VIdent (txt "Vec")); (4%N, VTokens [p1 "<"]); (5%N, VIdent (txt "u32")); (6%N, VTokens [p1 ">"])]) None] None /\
  make_substitutions ascii (new_initialized ascii 7 100) {| spec_items := [(txt "a", e1)]; is_comma_used := None |} = Err EvalError /\
  make_substitutions ascii (new_initialized ascii 7 100) {| spec_items := [(txt "a", e2)]; is_comma_used := None |} = Err EvalError /\
  parse_path ascii (i "std" :: colons ++ [i "vec"]) = Some (i "std" :: colons ++ [i "vec"]) /\
  parse_type ascii [i "Vec"; p1 "<"; i "u32"; p1 ">"] = Some [i "Vec"; p1 "<"; i "u32"; p1 ">"].
Proof. do 2 eexists. split; [reflexivity|]. split; [reflexivity|]. repeat split; vm_compute; reflexivity. Qed.
