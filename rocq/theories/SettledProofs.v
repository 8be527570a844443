(** Proofs for SpecNaming: calls that mean the same wherever they stand. *)
From Coq Require Import String Lia.
From Verif Require Import Base BaseFacts Token Types TypesProofs Values Ast Env Resolve Eval
  SpecElab SpecCalls SpecPrograms SpecNaming
  ElabProofs ElabFacts BuiltinFacts CallFacts ResolveFacts NamingProofs.
Open Scope list_scope.

Section Builtins.
Context (O : oracles) (seed first : N).
Let env := new_initialized O seed first.

(** A call yields a value of the type of its overload. *)
Lemma call_typed G ctx e ex f tes t c vs r : ctx_ok G ctx -> elab env G e ex = inl (TECall f tes t, c) ->
  mapM (run O seed ctx) tes = Ok vs -> f_impl f seed vs = Ok r -> type_of r = f_out_type f.
Proof.
  intros Hctx H Hvs Hr. destruct e as [id v|id name args raw]; cbn [elab] in H; [destruct (coercion_cost _ _); discriminate|].
  destruct (get_func_variants env name) as [fs|] eqn:Eg; [|discriminate].
  destruct (best _) as [[[d' f'] tes']|] eqn:Eb; [|discriminate]. injection H as -> -> _ _.
  pose proof (best_in _ _ Eb) as Hv. apply viable_in in Hv as [Hf He].
  assert (Hargs : typed_args (f_arg_types f) vs).
  { apply elab_func_inv in He as (c0 & Hc0 & [(ts & Hr1 & Hr2 & _ & ->)|(Hnr & ps & c' & Hps & Hargs & _)]).
    - cbn in Hvs. injection Hvs as <-. unfold typed_args. rewrite Hr1. exists [(TyRaw, 1%N)]. split; [reflexivity|]. constructor; [reflexivity|constructor].
    - rewrite map_length in Hps.
      assert (Hall : Forall2 (fun (p : ty * N) te => runs O seed ctx te /\ target_of te = fst p) ps tes).
      { pose proof (elab_args_inv _ _ _ _ Hargs) as Hinv.
        rewrite map_length, (params_length _ _ _ Hps) in Hinv. specialize (Hinv eq_refl).
        assert (Hsf : forall i x p, nth_error args i = Some x -> nth_error ps i = Some p -> leaf_ident G x = true -> needs_parser (fst p) = false).
        { intros i x p. exact (chosen_safe O seed first G name args _ ex fs d' f tes ps i x p Eg Eb Hnr Hps). }
        pose proof (params_length _ _ _ Hps) as Hlen. clear - Hinv Hsf Hlen Hctx.
        revert ps tes Hinv Hsf Hlen. induction args as [|x args IHargs]; intros ps tes Hinv Hsf Hlen;
          destruct ps as [|p ps]; cbn in Hlen; try discriminate; cbn [map combine] in Hinv; inversion Hinv as [|? te' ? tes' [d' Hd] Hinv']; subst.
        - constructor.
        - cbn [fst snd] in Hd. constructor.
          + pose proof (elab_target O seed first _ _ _ _ _ _ Hd eq_refl) as Htg. split; [|exact Htg].
            eapply (elab_sound O seed first); [exact Hctx|exact Hd|]. intros Hleaf. rewrite Htg. exact (Hsf 0 x p eq_refl eq_refl Hleaf).
          + apply IHargs; [exact Hinv'| |congruence]. intros i a' p' H1 H2. exact (Hsf (S i) a' p' H1 H2). }
      pose proof (mapM_runs O seed ctx ps tes Hall) as Hm. rewrite Hvs in Hm.
      exists ps. split; [|exact Hm]. rewrite <- Hps.
      assert (Hlv : List.length vs = List.length args).
      { rewrite <- (params_length _ _ _ Hps). clear - Hm. induction Hm; cbn; congruence. }
      rewrite Hlv. apply params_types. reflexivity. }
  pose proof (builtin_typed O seed first _ _ _ _ Eg Hf Hargs) as Hb. rewrite Hr in Hb. exact Hb.
Qed.

(** ** Replacing an alias by a settled call *)
Section Expand.
Context (a : str) (f0 : func) (args0 : list texpr).

Inductive tr : texpr -> texpr -> Prop :=
| TrHere t : coercion_cost (f_out_type f0) t <> None -> tr (TEVal (VIdent a) t) (TECall f0 args0 t)
| TrVal v t : tr (TEVal v t) (TEVal v t)
| TrCall f args args' t : Forall2 tr args args' -> tr (TECall f args t) (TECall f args' t).

Definition outs (ex : option ty) (x y : outcome) : Prop :=
  match x, y with
  | inl (te, c), inl (te', c') => tr te te' /\ c = c'
  | inr e, inr e' => ex = None -> e = e'
  | _, _ => False
  end.
Definition els (x y : elaborator) : Prop := forall ex, outs ex (x ex) (y ex).

Lemma tr_target te te' : tr te te' -> target_of te = target_of te'.
Proof. intros H; inversion H; reflexivity. Qed.

Lemma elab_args_tr ps : forall args args', Forall2 els args args' ->
  match elab_args ps args, elab_args ps args' with
  | Some (c, tes), Some (c', tes') => c = c' /\ Forall2 tr tes tes'
  | None, None => True
  | _, _ => False
  end.
Proof.
  induction ps as [|[t m] ps IH]; intros args args' H; [cbn; auto|].
  destruct H as [|x x' args args' Ha Hargs]; [cbn; auto|]. cbn [elab_args].
  specialize (Ha (Some t)). unfold outs in Ha. specialize (IH _ _ Hargs).
  destruct (x (Some t)) as [[te c]|], (x' (Some t)) as [[te' c']|]; try contradiction; [|auto].
  destruct Ha as [Ht ->].
  destruct (elab_args ps args) as [[d tes]|], (elab_args ps args') as [[d' tes']|]; try contradiction; [|auto].
  destruct IH as [-> IH]. auto.
Qed.

Lemma elab_func_tr f args args' raw ex : Forall2 els args args' ->
  match elab_func f args raw ex, elab_func f args' raw ex with
  | Some (c, tes), Some (c', tes') => c = c' /\ Forall2 tr tes tes'
  | None, None => True
  | _, _ => False
  end.
Proof.
  intros Hargs. unfold elab_func.
  assert (Hlen : List.length args = List.length args') by (clear - Hargs; induction Hargs; cbn; congruence).
  rewrite <- Hlen.
  destruct (match ex with Some t => coercion_cost (f_out_type f) t | None => Some 0%N end) as [c0|]; [|exact I].
  assert (Hgen : match match params f (List.length args) with None => None | Some ps => match elab_args ps args with Some (c, tes) => Some ((c0 + c)%N, tes) | None => None end end,
      match params f (List.length args) with None => None | Some ps => match elab_args ps args' with Some (c, tes) => Some ((c0 + c)%N, tes) | None => None end end with
    | Some (c, tes), Some (c', tes') => c = c' /\ Forall2 tr tes tes'
    | None, None => True
    | _, _ => False
    end).
  { destruct (params f (List.length args)) as [ps|]; [|exact I]. pose proof (elab_args_tr ps _ _ Hargs) as H.
    destruct (elab_args ps args) as [[d tes]|], (elab_args ps args') as [[d' tes']|]; try contradiction; [|exact I].
    destruct H as [-> H]. auto. }
  destruct (f_arg_types f) as [|t0 ts0]; [exact Hgen|].
  destruct t0; try exact Hgen. destruct ts0; try exact Hgen.
  destruct raw; [|exact Hgen].
  split; [reflexivity|]. constructor; [|constructor]. constructor.
Qed.

Definition entries (x y : entry) : Prop :=
  let '(c, f, tes) := x in let '(c', f', tes') := y in c = c' /\ f = f' /\ Forall2 tr tes tes'.

Lemma viable_tr fs args args' raw ex : Forall2 els args args' ->
  Forall2 entries (viable fs args raw ex) (viable fs args' raw ex).
Proof.
  intros Hargs. induction fs as [|f fs IH]; cbn [viable]; [constructor|].
  pose proof (elab_func_tr f args args' raw ex Hargs) as H.
  destruct (elab_func f args raw ex) as [[c tes]|], (elab_func f args' raw ex) as [[c' tes']|]; try contradiction; [|exact IH].
  destruct H as [-> H]. constructor; [|exact IH]. cbn. auto.
Qed.

Lemma best_tr l l' : Forall2 entries l l' ->
  match best l, best l' with Some x, Some y => entries x y | None, None => True | _, _ => False end.
Proof.
  intros H. rewrite !best_leftmost. apply leftmost_rel; [|exact H].
  intros [[c f] t] [[c1 f1] t1] [[c2 f2] t2] [[c3 f3] t3] (-> & -> & _) (-> & -> & _). reflexivity.
Qed.

(** In a scope where [a] has the type of the call and the call is settled. *)
Context (d : expr).
Definition scope (G : tenv) : Prop :=
  assoc_str a G = Some (f_out_type f0) /\
  elab env G d None = inl (TECall f0 args0 (f_out_type f0), 0%N) /\
  forall t, match coercion_cost (f_out_type f0) t with
            | Some c => elab env G d (Some t) = inl (TECall f0 args0 t, c)
            | None => exists er, elab env G d (Some t) = inr er
            end.

Lemma elab_tr G e : scope G -> forall e', expanded a d e e' -> els (elab env G e) (elab env G e').
Proof.
  intros (Ha & Hd & Hd'). induction e as [id v|id name args raw IH] using expr_ind'; intros e' H ex;
    inversion H as [? d' Hs|? ? ?|? ? ? ? ? ? ? Hargs Hraw]; subst.
  - unfold env. rewrite <- (elab_same_but_raw O seed first G d e' Hs ex). fold env. cbn [elab]. cbn [static_type].
    unfold outs. destruct ex as [t|].
    + rewrite Ha. specialize (Hd' t). destruct (coercion_cost (f_out_type f0) t) as [c|] eqn:Ec.
      * rewrite Hd'. split; [constructor; congruence|reflexivity].
      * destruct Hd' as [er ->]. discriminate.
    + rewrite Ha, cost_same, Hd. split; [constructor; rewrite cost_same; discriminate|reflexivity].
  - cbn [elab]. unfold outs. destruct (coercion_cost _ _); [|reflexivity]. split; [constructor|reflexivity].
  - cbn [elab].
    assert (Hl : Forall2 els (map (elab env G) args) (map (elab env G) args')).
    { clear - IH Hargs. revert args' Hargs. induction IH as [|x args Hx _ IHa]; intros args' Hargs; inversion Hargs; subst; cbn [map]; constructor; auto. }
    destruct (get_func_variants env name) as [fs|] eqn:Eg; [|unfold outs; reflexivity].
    assert (E : viable fs (map (elab env G) args') (option_map snd raw') ex = viable fs (map (elab env G) args') (option_map snd raw) ex).
    { destruct (raw_takers O seed first name fs Eg) as [Ht|Ht]; [rewrite (Hraw Ht); reflexivity|apply viable_raw; exact Ht]. }
    rewrite E.
    pose proof (best_tr _ _ (viable_tr fs _ _ (option_map snd raw) ex Hl)) as Hb.
    destruct (best (viable fs (map (elab env G) args) _ ex)) as [[[c f] tes]|], (best (viable fs (map (elab env G) args') _ ex)) as [[[c' f'] tes']|]; try contradiction; [|unfold outs; reflexivity].
    destruct Hb as (-> & -> & Ht). split; [constructor; exact Ht|reflexivity].
Qed.

Lemma scope_cons G n t : scope G -> n <> a -> ~ In n (mentions d) -> scope ((n, t) :: G).
Proof.
  intros (Ha & Hd & Hd') Hn Hm.
  assert (E : forall ex, elab env ((n, t) :: G) d ex = elab env G d ex).
  { intros ex. apply elab_mentions. intros x Hx. cbn [assoc_str]. rewrite str_eqb_neq; [reflexivity|]. intros ->. exact (Hm Hx). }
  split; [|split].
  - cbn [assoc_str]. rewrite str_eqb_neq by (intros E'; apply Hn; symmetry; exact E'). exact Ha.
  - rewrite E. exact Hd.
  - intros u. specialize (Hd' u). destruct (coercion_cost _ _); rewrite E; exact Hd'.
Qed.

Lemma elab_items_tr items : forall items' G, scope G ->
  (forall n, In n (map fst items) -> ~ In n (mentions d)) -> expanded_items a d items items' ->
  match elab_items env G items, elab_items env G items' with
  | Ok tis, Ok tis' => Forall2 (fun x y => fst x = fst y /\ tr (snd x) (snd y)) tis tis'
  | Err e, Err e' => e = e'
  | _, _ => False
  end.
Proof.
  induction items as [|[n e] items IH]; intros items' G HG Hgood H; inversion H as [|? [n' e'] ? rest [Hn He] Hi]; subst; [constructor|].
  cbn in Hn, He. subst n'. cbn [elab_items].
  pose proof (elab_tr G e HG e' He None) as Hr. unfold outs in Hr.
  destruct (elab env G e None) as [[te c]|er], (elab env G e' None) as [[te' c']|er']; try contradiction; [|exact (Hr eq_refl)].
  destruct Hr as [Ht ->]. destruct (assoc_str n G) eqn:E1; [reflexivity|].
  rewrite <- (tr_target _ _ Ht).
  assert (HG' : scope ((n, target_of te) :: G)).
  { apply scope_cons; [exact HG| |apply Hgood; left; reflexivity]. intros ->. destruct HG as [Ha _]. congruence. }
  specialize (IH rest _ HG' (fun m Hm => Hgood m (or_intror Hm)) Hi).
  destruct (elab_items env _ items), (elab_items env _ rest); try contradiction; cbn [bind]; [|exact IH].
  constructor; [|exact IH]. auto.
Qed.

(** Evaluation, where [a] is the value of the call. *)
Definition computed (ctx : venv) (v : value) : Prop :=
  assoc_str a ctx = Some v /\ type_of v = f_out_type f0 /\
  (let! vs := mapM (run O seed ctx) args0 in f_impl f0 seed vs) = Ok v.

Lemma run_tr ctx v te : computed ctx v -> forall te', tr te te' ->
  run O seed ctx te = run O seed ctx te' \/ run O seed ctx te = Panic PCoercion.
Proof.
  intros (Ha & Hty & Hv). induction te as [w t|f args t IH] using texpr_ind'; intros te' H; inversion H as [? Hc|? ?|? ? ? ? Hargs]; subst; cbn [run].
  - rewrite Ha. apply bind_Ok in Hv as (vs & Hvs & Hv). rewrite Hvs. cbn [bind]. rewrite Hv. cbn [bind].
    destruct (try_cast O v t) as [u|e|p]; cbn [coerced]; auto.
  - left; reflexivity.
  - assert (E : mapM (run O seed ctx) args = mapM (run O seed ctx) args' \/ mapM (run O seed ctx) args = Panic PCoercion).
    { clear H. revert args' Hargs. induction IH as [|x args Hx _ IHa]; intros args' Hargs; inversion Hargs as [|? y ? l Hxy Hl]; subst; [left; reflexivity|].
      cbn [mapM]. destruct (Hx _ Hxy) as [E|E]; [|right; rewrite E; reflexivity].
      rewrite E. destruct (run O seed ctx y) as [u| |]; [|left; reflexivity|left; reflexivity]. cbn [bind].
      destruct (IHa _ Hl) as [E'|E']; rewrite E'; [left; reflexivity|right; reflexivity]. }
    destruct E as [E|E]; rewrite E; [left; reflexivity|right; reflexivity].
Qed.

Lemma run_items_tr v tis : forall tis' ctx, computed ctx v ->
  (forall n, In n (map fst tis) -> n <> a /\ ~ In n (tmentions (TECall f0 args0 (f_out_type f0)))) ->
  Forall2 (fun x y => fst x = fst y /\ tr (snd x) (snd y)) tis tis' ->
  run_items O seed ctx tis = run_items O seed ctx tis' \/ run_items O seed ctx tis = Panic PCoercion.
Proof.
  induction tis as [|[n te] tis IH]; intros tis' ctx HC Hgood H; inversion H as [|? [n' te'] ? rest [Hn Ht] Hr]; subst; [left; reflexivity|].
  cbn in Hn, Ht. subst n'. cbn [run_items].
  destruct (run_tr ctx v te HC te' Ht) as [E|E]; [|right; rewrite E; reflexivity].
  rewrite E. destruct (run O seed ctx te') as [u| |]; [|left; reflexivity|left; reflexivity]. cbn [bind].
  destruct (Hgood n (or_introl eq_refl)) as [Hna Hnm].
  assert (HC' : computed ((n, u) :: ctx) v).
  { destruct HC as (Ha & Hty & Hv). split; [|split; [exact Hty|]].
    - cbn [assoc_str]. rewrite str_eqb_neq by (intros E'; apply Hna; symmetry; exact E'). exact Ha.
    - replace (mapM (run O seed ((n, u) :: ctx)) args0) with (mapM (run O seed ctx) args0); [exact Hv|].
      cbn in Hnm. clear - Hnm. induction args0 as [|x l IHl]; [reflexivity|]. cbn [mapM].
      rewrite (run_mentions O seed x ctx ((n, u) :: ctx)).
      + destruct (run O seed ((n, u) :: ctx) x); try reflexivity. cbn [bind]. rewrite IHl; [reflexivity|].
        intros Hin. apply Hnm. cbn. apply in_or_app. auto.
      + intros y Hy. cbn [assoc_str]. rewrite str_eqb_neq; [reflexivity|]. intros ->. apply Hnm. cbn. apply in_or_app. auto. }
  destruct (IH rest _ HC' (fun m Hm => Hgood m (or_intror Hm)) Hr) as [E'|E']; rewrite E'; [left; reflexivity|right; reflexivity].
Qed.
End Expand.

Lemma bindings_expand a pre d post post' :
  (forall tis, elab_items env [] pre = Ok tis -> settled env (tenv_of tis) d) ->
  expanded_items a d post post' -> (forall y, In y (mentions d) -> y <> a /\ ~ In y (map fst post)) ->
  bindings O env ((pre ++ [(a, d)]) ++ post) = bindings O env ((pre ++ [(a, d)]) ++ post').
Proof.
  intros Hset Hi Hm. unfold env. rewrite !bindings_split. fold env.
  destruct (elab_items env [] (pre ++ [(a, d)])) as [t1| |] eqn:E1; [cbn [bind]|reflexivity|reflexivity].
  pose proof (items_sound O seed first _ [] [] t1 (Forall2_nil _) E1) as Hs.
  pose proof E1 as E0.
  rewrite elab_items_app in E1. apply bind_Ok in E1 as (tp & Ep & E1). apply bind_Ok in E1 as (ta & Ea & E1). injection E1 as <-.
  specialize (Hset _ Ep). destruct Hset as (f0 & args0 & Hd & Hd'). rewrite app_nil_r in Ea.
  cbn [elab_items] in Ea. rewrite Hd in Ea. cbn [target_of] in Ea.
  destruct (assoc_str a (tenv_of tp)) eqn:Efree; [discriminate|]. cbn [bind] in Ea. injection Ea as <-.
  unfold alias in *. set (te0 := TECall f0 args0 (f_out_type f0)) in *.
  assert (HG : tenv_of (tp ++ [(a, te0)]) = (a, f_out_type f0) :: tenv_of tp).
  { unfold tenv_of. rewrite map_app, rev_app_distr. reflexivity. }
  assert (Hsc : scope a f0 args0 d (tenv_of (tp ++ [(a, te0)]))).
  { rewrite HG. unfold scope.
    assert (E : forall ex, elab env ((a, f_out_type f0) :: tenv_of tp) d ex = elab env (tenv_of tp) d ex).
    { intros ex. apply elab_mentions. intros x Hx. cbn [assoc_str]. rewrite str_eqb_neq; [reflexivity|]. exact (proj1 (Hm x Hx)). }
    split; [cbn [assoc_str]; rewrite str_eqb_refl; reflexivity|]. split; [rewrite E; exact Hd|].
    intros t. specialize (Hd' t). destruct (coercion_cost _ _); rewrite E; exact Hd'. }
  pose proof (elab_items_tr a f0 args0 d post post' _ Hsc (fun n Hn Hin => proj2 (Hm n Hin) Hn) Hi) as Hel.
  set (G := tenv_of (tp ++ [(a, te0)])) in *.
  destruct (elab_items env G post) as [t2| |] eqn:E2, (elab_items env G post') as [t2'| |] eqn:E2'; try contradiction; cbn [bind]; [|rewrite Hel; reflexivity].
  destruct (run_items O seed [] (tp ++ [(a, te0)])) as [b1| |] eqn:Er; [cbn [bind]|reflexivity|reflexivity].
  pose proof (ctx_ok_of _ _ Hs) as Hok. fold G in Hok.
  pose proof Er as Er0.
  rewrite run_items_app in Er. apply bind_Ok in Er as (bp & Erp & Er). apply bind_Ok in Er as (ba & Era & Er). injection Er as <-.
  rewrite app_nil_r in Era. cbn [run_items] in Era. apply bind_Ok in Era as (v & Ev & Era). cbn [bind] in Era. injection Era as <-.
  assert (Hfree : assoc_str a (rev bp) = None).
  { apply assoc_str_None. rewrite map_rev, <- in_rev, (run_items_names _ _ _ _ _ Erp).
    apply assoc_str_None in Efree. rewrite tenv_of_names, <- in_rev in Efree. exact Efree. }
  pose proof (elab_tmentions env (tenv_of tp) d None te0 0%N Hd) as Htm.
  assert (Hty : type_of v = f_out_type f0).
  { clear - Hs. apply Forall2_app_inv_l in Hs as (l1 & l2 & _ & H2 & E). inversion H2 as [|? b ? l [_ Hb] Hl]; subst. inversion Hl; subst.
    apply app_inj_tail in E as [_ <-]. exact Hb. }
  assert (HC : computed a f0 args0 (rev (bp ++ [(a, v)])) v).
  { rewrite rev_app_distr. cbn [rev app]. split; [cbn [assoc_str]; rewrite str_eqb_refl; reflexivity|]. split; [exact Hty|].
    replace (mapM (run O seed ((a, v) :: rev bp)) args0) with (mapM (run O seed (rev bp)) args0).
    - unfold te0 in Ev. cbn [run] in Ev. apply bind_Ok in Ev as (vs & Evs & Ev). apply bind_Ok in Ev as (r & Er & Ev).
      rewrite Evs. cbn [bind]. rewrite Er.
      (* the implementation returns a value of its declared type *)
      assert (Hr : type_of r = f_out_type f0).
      { pose proof (items_sound O seed first pre [] [] tp (Forall2_nil _) Ep) as Hsp. rewrite Erp in Hsp. apply ctx_ok_of in Hsp.
        exact (call_typed _ _ _ _ _ _ _ _ _ _ Hsp Hd Evs Er). }
      rewrite <- Hr, cast_same in Ev. injection Ev as ->. reflexivity.
    - assert (Hna : ~ In a (tmentions te0)) by (intros Hin; exact (proj1 (Hm a (Htm _ Hin)) eq_refl)).
      unfold te0 in Hna. cbn in Hna. clear - Hna. induction args0 as [|x l IHl]; [reflexivity|]. cbn [mapM].
      rewrite (run_mentions O seed x (rev bp) ((a, v) :: rev bp)).
      + destruct (run O seed ((a, v) :: rev bp) x); try reflexivity. cbn [bind]. rewrite IHl; [reflexivity|].
        intros Hin. apply Hna. cbn. apply in_or_app. auto.
      + intros y Hy. cbn [assoc_str]. rewrite str_eqb_neq; [reflexivity|]. intros ->. apply Hna. cbn. apply in_or_app. auto. }
  pose proof (items_sound O seed first post G (rev (bp ++ [(a, v)])) t2 Hok E2) as Hs2.
  destruct (run_items_tr a f0 args0 v t2 t2' _ HC) with (2 := Hel) as [E|E].
  - intros n Hn. rewrite (elab_items_names _ _ _ _ E2) in Hn. split.
    + intros ->. apply (proj2 (elab_items_NoDup _ _ _ _ E2) a Hn). rewrite HG. left. reflexivity.
    + intros Hin. exact (proj2 (Hm n (Htm _ Hin)) Hn).
  - rewrite E. reflexivity.
  - rewrite E in Hs2. destruct Hs2; discriminate.
Qed.

(** ** Which calls are settled *)
Lemma elab_func_expected g args raw t :
  elab_func g args raw (Some t) =
  match coercion_cost (f_out_type g) t with
  | None => None
  | Some c0 => match elab_func g args raw None with Some (c, tes) => Some ((c0 + c)%N, tes) | None => None end
  end.
Proof.
  unfold elab_func. destruct (coercion_cost (f_out_type g) t) as [c0|]; [|reflexivity].
  assert (Hgen : match params g (List.length args) with None => None | Some ps => match elab_args ps args with Some (c, tes) => Some ((c0 + c)%N, tes) | None => None end end =
    match match params g (List.length args) with None => None | Some ps => match elab_args ps args with Some (c, tes) => Some ((0 + c)%N, tes) | None => None end end with
    Some (c, tes) => Some ((c0 + c)%N, tes) | None => None end).
  { destruct (params g (List.length args)) as [ps|]; [|reflexivity]. destruct (elab_args ps args) as [[c tes]|]; reflexivity. }
  destruct (f_arg_types g) as [|t0 ts0]; [exact Hgen|]. destruct t0; try exact Hgen. destruct ts0; try exact Hgen.
  destruct raw; [|exact Hgen]. rewrite N.add_0_r. reflexivity.
Qed.

Definition settled_at (G : tenv) (e : expr) (s : ty) : Prop :=
  exists f args, f_out_type f = s /\
    elab env G e None = inl (TECall f args s, 0%N) /\
    forall t, match coercion_cost s t with
              | Some c => elab env G e (Some t) = inl (TECall f args t, c)
              | None => exists er, elab env G e (Some t) = inr er
              end.

Definition behaves (x : elaborator) (s : ty) : Prop :=
  forall t, match coercion_cost s t with
            | Some c => exists te, x (Some t) = inl (te, c)
            | None => exists er, x (Some t) = inr er
            end.

Lemma settled_behaves G e s : settled_at G e s -> behaves (elab env G e) s.
Proof.
  intros (f & args & _ & _ & H) t. specialize (H t). destruct (coercion_cost s t); [eexists|]; exact H.
Qed.

Lemma leaf_behaves G id v : behaves (elab env G (EValue id v)) (static_type G v).
Proof. intros t. cbn [elab]. destruct (coercion_cost (static_type G v) t); eexists; reflexivity. Qed.

Definition fixed (s : ty) : Prop := match s with TyVariadic _ => False | _ => True end.

Lemma settled_crit G id name args raw fs f tes :
  get_func_variants env name = Some fs -> NoDup (map f_id fs) -> In f fs ->
  elab_func f (map (elab env G) args) (option_map snd raw) None = Some (0%N, tes) -> fixed (f_out_type f) ->
  (forall g c tes', In g fs -> elab_func g (map (elab env G) args) (option_map snd raw) None = Some (c, tes') ->
     g = f \/ (0 < c /\ f_out_type g = f_out_type f)%N \/ (5 < c /\ f_out_type g = TyTokens)%N) ->
  settled_at G (ECall id name args raw) (f_out_type f).
Proof.
  intros Hfs Hnd Hin Hf Hfix Hother. exists f, tes. split; [reflexivity|]. split.
  - cbn [elab]. rewrite Hfs.
    replace (best _) with (Some (0%N, f, tes)); [reflexivity|]. symmetry. apply best_unique; [exact Hnd|].
    split; [exact Hin|]. split; [exact Hf|]. intros g c tes' Hg Hge.
    destruct (Hother g c tes' Hg Hge) as [->|[[H _]|[H _]]]; [left; reflexivity|right; left; lia|right; left; lia].
  - intros t. cbn [elab]. rewrite Hfs. destruct (coercion_cost (f_out_type f) t) as [c0|] eqn:Ec.
    + replace (best _) with (Some (c0, f, tes)); [reflexivity|]. symmetry. apply best_unique; [exact Hnd|].
      split; [exact Hin|]. split; [rewrite elab_func_expected, Ec, Hf, N.add_0_r; reflexivity|].
      intros g c tes' Hg Hge. rewrite elab_func_expected in Hge.
      destruct (coercion_cost (f_out_type g) t) as [c1|] eqn:Ec1; [|discriminate].
      destruct (elab_func g _ _ None) as [[c2 tes2]|] eqn:Eg; [|discriminate]. injection Hge as <- _.
      destruct (Hother g c2 tes2 Hg Eg) as [->|[[H E]|[H E]]]; [left; reflexivity| |].
      * right; left. rewrite E, Ec in Ec1. injection Ec1 as <-. lia.
      * right; left. rewrite E in Ec1.
        assert (Hc : (c0 <= 5)%N); [|lia].
        clear - Hfix Ec Ec1. destruct t; cbn in Ec1; try discriminate;
          destruct (f_out_type f); cbn in Ec, Hfix; try contradiction; injection Ec as <-; lia.
    + exists (SignatureError name). replace (best _) with (@None (N * func * list texpr)); [reflexivity|]. symmetry. apply best_none_iff.
      intros g Hg. rewrite elab_func_expected. destruct (coercion_cost (f_out_type g) t) as [c1|] eqn:Ec1; [|reflexivity].
      destruct (elab_func g _ _ None) as [[c2 tes2]|] eqn:Eg; [|reflexivity]. exfalso.
      destruct (Hother g c2 tes2 Hg Eg) as [->|[[H E]|[H E]]]; [congruence|congruence|].
      rewrite E in Ec1. destruct t; cbn in Ec1; try discriminate; destruct (f_out_type f); cbn in Ec, Hfix; try discriminate; contradiction.
Qed.

(** One argument. *)
Lemma elab_unary g t x s raw : f_arg_types g = [t] -> fixed t -> t <> TyRaw -> behaves x s ->
  match elab_func g [x] raw None with
  | Some (c, _) => coercion_cost s t = Some c
  | None => coercion_cost s t = None
  end.
Proof.
  intros Ha Hv Hr Hx. unfold elab_func. rewrite Ha.
  assert (Hp : params g (List.length [x]) = Some [(t, 1%N)]).
  { unfold params, variadic_arg_type, non_variadic_arg_types, num_args. rewrite Ha. cbn. destruct t; try reflexivity. contradiction. }
  rewrite Hp.
  assert (Hgen : match match elab_args [(t, 1%N)] [x] with Some (c, tes) => Some ((0 + c)%N, tes) | None => None end with
    | Some (c, _) => coercion_cost s t = Some c | None => coercion_cost s t = None end).
  { cbn [elab_args]. specialize (Hx t). destruct (coercion_cost s t) as [c|].
    - destruct Hx as [te ->]. f_equal. lia.
    - destruct Hx as [er ->]. reflexivity. }
  destruct t; try exact Hgen. congruence.
Qed.

(** The same argument type throughout, and a variadic parameter. *)
Lemma elab_args_repeat t m s xs : Forall (fun x => behaves x s) xs ->
  match elab_args (repeat (t, m) (List.length xs)) xs with
  | Some (c, _) => (xs = [] /\ c = 0%N) \/ exists d, coercion_cost s t = Some d /\ c = (d * m * N.of_nat (List.length xs))%N
  | None => coercion_cost s t = None
  end.
Proof.
  induction 1 as [|x xs Hx _ IH]; [left; auto|]. cbn [List.length repeat elab_args]. specialize (Hx t).
  destruct (coercion_cost s t) as [d|].
  - destruct Hx as [te ->]. destruct (elab_args _ xs) as [[c tes]|]; [|discriminate]. right. exists d. split; [reflexivity|].
    destruct IH as [[-> ->]|(d' & E & ->)]; [cbn; lia|]. injection E as <-. lia.
  - destruct Hx as [er ->]. reflexivity.
Qed.

Lemma number_ids vs : forall name k, NoDup (map f_id (number_variants name k vs)) /\ forall f, In f (number_variants name k vs) -> (k <= f_id f)%N.
Proof.
  induction vs as [|[[x o] im] vs IH]; intros name k; cbn [number_variants]; [split; [constructor|contradiction]|].
  destruct (IH name (N.succ k)) as [H1 H2]. cbn [map f_id]. split.
  - constructor; [|exact H1]. intros Hin. apply in_map_iff in Hin as (f & E & Hf). specialize (H2 f Hf). lia.
  - intros f [<-|Hf]; [cbn; lia|]. specialize (H2 f Hf). lia.
Qed.

Lemma variants_ids name fs : get_func_variants env name = Some fs -> NoDup (map f_id fs).
Proof. intros H. apply builtin_variants in H as (k & vs & _ & ->). apply number_ids. Qed.

(** One argument of type [s], overloads of one parameter each. *)
Lemma settled_unary G id name arg raw fs f s :
  get_func_variants env name = Some fs -> In f fs ->
  Forall (fun g => exists t, f_arg_types g = [t] /\ fixed t /\ t <> TyRaw /\
    (coercion_cost s t <> None -> g = f \/ (coercion_cost s t <> Some 0%N /\ f_out_type g = f_out_type f))) fs ->
  f_arg_types f = [s] -> fixed (f_out_type f) -> behaves (elab env G arg) s ->
  settled_at G (ECall id name [arg] raw) (f_out_type f).
Proof.
  intros Hfs Hin Hall Hf Hfix Hb. rewrite Forall_forall in Hall.
  destruct (Hall f Hin) as (t & E & Ht & Hr & _). rewrite Hf in E. injection E as <-.
  pose proof (elab_unary f s _ s (option_map snd raw) Hf Ht Hr Hb) as Hu. rewrite cost_same in Hu.
  destruct (elab_func f [elab env G arg] (option_map snd raw) None) as [[c tes]|] eqn:Ef; [|discriminate]. injection Hu as <-.
  apply (settled_crit G id name [arg] raw fs f tes Hfs (variants_ids _ _ Hfs) Hin Ef Hfix).
  intros g c tes' Hg Hge. destruct (Hall g Hg) as (t & E & Ht' & Hr' & Ho).
  pose proof (elab_unary g t _ s (option_map snd raw) E Ht' Hr' Hb) as Hu. cbn [map] in Hge. rewrite Hge in Hu.
  rewrite Hu in Ho. destruct (Ho ltac:(discriminate)) as [->|[Hc Hout]]; [left; reflexivity|right; left].
  split; [|exact Hout]. destruct c; [destruct (Hc eq_refl)|lia].
Qed.

Lemma number_types vs : forall name k f g, NoDup (map (fun r : list ty * ty * (N -> list value -> res value) => fst (fst r)) vs) ->
  In f (number_variants name k vs) -> In g (number_variants name k vs) -> f_arg_types f = f_arg_types g -> f = g.
Proof.
  induction vs as [|[[x o] im] vs IH]; intros name k f g Hnd Hf Hg E; cbn [number_variants] in *; [contradiction|].
  cbn [map fst] in Hnd. inversion Hnd as [|? ? Hni Hnd']; subst.
  assert (Hno : forall h, In h (number_variants name (N.succ k) vs) -> f_arg_types h <> x).
  { intros h Hh Eh. apply number_variants_in in Hh as [Hh _]. apply Hni. rewrite <- Eh.
    exact (in_map (fun r => fst (fst r)) vs _ Hh). }
  destruct Hf as [<-|Hf], Hg as [<-|Hg]; [reflexivity| | |eauto].
  - destruct (Hno g Hg). rewrite <- E. reflexivity.
  - destruct (Hno f Hf). rewrite E. reflexivity.
Qed.

Lemma settled_row G id name arg raw k rows s o im :
  get_func_variants env name = Some (number_variants name k rows) -> In ([s], o, im) rows ->
  NoDup (map (fun r => fst (fst r)) rows) ->
  Forall (fun r => exists t, fst (fst r) = [t] /\ fixed t /\ t <> TyRaw /\ (t = s \/ coercion_cost s t = None \/ (coercion_cost s t <> Some 0%N /\ snd (fst r) = o))) rows ->
  fixed o -> behaves (elab env G arg) s ->
  settled_at G (ECall id name [arg] raw) o.
Proof.
  intros Hfs Hrow Hnd Hall Hfix Hb. destruct (number_variants_map rows name k _ _ _ Hrow) as (f & Hf & E1 & E2 & _).
  rewrite <- E2. apply (settled_unary G id name arg raw _ f s Hfs Hf); [|exact E1|rewrite E2; exact Hfix|exact Hb].
  apply Forall_forall. intros g Hg. pose proof (number_variants_in _ _ _ _ Hg) as [Hgr _].
  rewrite Forall_forall in Hall. destruct (Hall _ Hgr) as (t & Et & Ht & Hr & Hc). cbn [fst snd] in Et, Hc.
  exists t. split; [exact Et|]. split; [exact Ht|]. split; [exact Hr|]. intros Hcc. destruct Hc as [->|[Hc|[Hc Ho]]].
  - left. apply (number_types rows name k g f Hnd Hg Hf). congruence.
  - contradiction.
  - right. split; [exact Hc|]. congruence.
Qed.

Ltac distinct := repeat (constructor; [cbn; intuition discriminate|]); constructor.
Ltac rows := repeat (constructor; [eexists; split; [reflexivity|]; split; [exact I|]; split; [discriminate|];
  first [left; reflexivity | right; left; reflexivity | right; right; split; [discriminate|reflexivity]]|]); constructor.
Ltac unary := (eapply settled_row; [| | | | |eassumption]); [reflexivity|cbn [In]; eauto 10|distinct|rows|exact I].

Lemma case_settled G id name arg raw s : In name case_functions -> s = TyIdent \/ s = TyLitStr -> behaves (elab env G arg) s ->
  settled_at G (ECall id name [arg] raw) s.
Proof.
  intros Hname Hs Hb. cbn [In case_functions] in Hname.
  destruct Hs as [-> | ->]; repeat (destruct Hname as [<-|Hname]; [unary|]); contradiction.
Qed.

Lemma normalize2_settled G id arg raw s : In s [TyIdent; TyLitStr; TyLitInt; TyPath; TyType; TyExpr; TyTokens] -> behaves (elab env G arg) s ->
  settled_at G (ECall id (txt "normalize2") [arg] raw) TyIdent.
Proof.
  intros Hs Hb. cbn [In] in Hs. repeat (destruct Hs as [<-|Hs]; [unary|]). contradiction.
Qed.

Lemma reader_settled G id name arg raw s : In (name, s) readers -> behaves (elab env G arg) TyTokens ->
  settled_at G (ECall id name [arg] raw) s.
Proof.
  intros Hs Hb. cbn [In readers] in Hs. repeat (destruct Hs as [E|Hs]; [injection E as <- <-; unary|]). contradiction.
Qed.

Lemma hash_settled G id arg raw : behaves (elab env G arg) TyIdent -> settled_at G (ECall id (txt "hash") [arg] raw) TyIdent.
Proof. intros Hb. unary. Qed.

(** Functions of their source. *)
Lemma source_settled G id name args r k o im :
  get_func_variants env name = Some (number_variants name k [([TyRaw], o, im)]) -> fixed o ->
  settled_at G (ECall id name args (Some r)) o.
Proof.
  intros Hfs Ho. cbn [number_variants] in Hfs. set (f := {| f_id := k; f_name := name; f_arg_types := [TyRaw]; f_out_type := o; f_impl := im |}) in *.
  change o with (f_out_type f).
  apply (settled_crit G id name args (Some r) [f] f [TEVal (VRaw (snd r)) TyRaw] Hfs); [repeat constructor; intros []|left; reflexivity|reflexivity|exact Ho|].
  intros g c tes' [<-|[]] _. left; reflexivity.
Qed.

(** [concat]. *)
Lemma elab_variadic g t xs s raw : f_arg_types g = [TyVariadic t] -> xs <> [] -> Forall (fun x => behaves x s) xs ->
  match elab_func g xs raw None with
  | Some (c, _) => exists d, coercion_cost s t = Some d /\ c = (d * 2 * N.of_nat (List.length xs))%N
  | None => coercion_cost s t = None
  end.
Proof.
  intros Ha Hne Hall. unfold elab_func. rewrite Ha.
  assert (Hp : params g (List.length xs) = Some (repeat (t, 2%N) (List.length xs))).
  { unfold params, variadic_arg_type, non_variadic_arg_types, num_args. rewrite Ha. destruct xs; [congruence|]. reflexivity. }
  rewrite Hp. pose proof (elab_args_repeat t 2 s xs Hall) as H.
  destruct (elab_args _ xs) as [[c tes]|]; [|exact H]. destruct H as [[-> _]|(d & E & ->)]; [congruence|]. exists d. split; [exact E|lia].
Qed.

Lemma elab_append g x xs s s' raw : f_arg_types g = [TyIdent; TyVariadic TyTokens] -> behaves x s -> Forall (fun x => behaves x s') xs ->
  match elab_func g (x :: xs) raw None with
  | Some (c, _) => xs <> [] /\ exists d, coercion_cost s TyIdent = Some 0%N /\ coercion_cost s' TyTokens = Some d /\ c = (d * 2 * N.of_nat (List.length xs))%N
  | None => xs = [] \/ coercion_cost s TyIdent = None \/ coercion_cost s' TyTokens = None
  end.
Proof.
  intros Ha Hx Hall. unfold elab_func. rewrite Ha.
  assert (Hp : params g (List.length (x :: xs)) = match xs with [] => None | _ => Some ((TyIdent, 1%N) :: repeat (TyTokens, 2%N) (List.length xs)) end).
  { unfold params, variadic_arg_type, non_variadic_arg_types, num_args. rewrite Ha. destruct xs; reflexivity. }
  rewrite Hp. pose proof (elab_args_repeat TyTokens 2 s' xs Hall) as H. specialize (Hx TyIdent).
  destruct xs as [|y ys]; [left; reflexivity|]. cbn [elab_args].
  destruct (coercion_cost s TyIdent) as [c0|] eqn:Ec.
  - destruct Hx as [te ->]. destruct (elab_args _ (y :: ys)) as [[c tes]|]; [|right; right; exact H].
    destruct H as [[E _]|(d & E & ->)]; [discriminate|]. split; [discriminate|]. exists d.
    assert (c0 = 0%N) as -> by (clear - Ec; destruct s; cbn in Ec; congruence).
    split; [reflexivity|]. split; [exact E|]. lia.
  - destruct Hx as [er ->]. right; left; reflexivity.
Qed.

Lemma concat_settled G id args raw s : args <> [] -> In s [TyIdent; TyLitStr; TyLitInt; TyTokens] ->
  Forall (fun arg => behaves (elab env G arg) s) args -> settled_at G (ECall id (txt "concat") args raw) s.
Proof.
  intros Hne Hs Hall. destruct (concat_variants O seed first) as [k Hk]. fold env in Hk.
  set (fs := number_variants (txt "concat") k (concat_rows O)) in *.
  set (xs := map (elab env G) args).
  assert (Hxs : Forall (fun x => behaves x s) xs) by (unfold xs; rewrite Forall_map; exact Hall).
  assert (Hxne : xs <> []) by (unfold xs; destruct args; [congruence|discriminate]).
  assert (Hrow : exists im, In ([TyVariadic s], s, im) (concat_rows O)).
  { cbn [In] in Hs. unfold concat_rows. repeat (destruct Hs as [<-|Hs]; [eexists; cbn [In]; eauto 6|]). contradiction. }
  destruct Hrow as [im Hrow]. destruct (number_variants_map _ (txt "concat") k _ _ _ Hrow) as (f & Hf & E1 & E2 & _). fold fs in Hf.
  pose proof (elab_variadic f s xs s (option_map snd raw) E1 Hxne Hxs) as Hu. rewrite cost_same in Hu.
  destruct (elab_func f xs (option_map snd raw) None) as [[c tes]|] eqn:Ef; [|discriminate]. destruct Hu as (d & Ed & ->). injection Ed as <-.
  change (0 * 2 * N.of_nat (List.length xs))%N with 0%N in Ef.
  assert (Hfixed : fixed (f_out_type f)) by (rewrite E2; cbn [In] in Hs; repeat (destruct Hs as [<-|Hs]; [exact I|]); contradiction).
  rewrite <- E2.
  apply (settled_crit G id (txt "concat") args raw fs f tes Hk (variants_ids _ _ Hk) Hf Ef Hfixed).
  intros g c tes' Hg Hge. fold xs in Hge.
  pose proof (number_variants_in _ _ _ _ Hg) as [Hgr _].
  assert (Hsame : f_arg_types g = f_arg_types f -> g = f).
  { intros E. apply (number_types (concat_rows O) (txt "concat") k g f); [unfold concat_rows; distinct|exact Hg|exact Hf|exact E]. }
  assert (Hlen : (1 <= N.of_nat (List.length xs))%N) by (destruct xs; [congruence|cbn [List.length]; lia]).
  unfold concat_rows in Hgr. cbn [In] in Hgr.
  destruct Hgr as [E|[E|[E|[E|[E|[]]]]]]; injection E as Eg1 Eg2 _.
  - pose proof (elab_variadic g TyIdent xs s (option_map snd raw) (eq_sym Eg1) Hxne Hxs) as Hv. rewrite Hge in Hv. destruct Hv as (d & Ed & _).
    left. apply Hsame. rewrite <- Eg1, E1. cbn [In] in Hs. repeat (destruct Hs as [<-|Hs]; [cbn in Ed; try discriminate; reflexivity|]). contradiction.
  - destruct xs as [|x xs']; [congruence|]. apply Forall_cons_iff in Hxs as [Hx Hxs'].
    pose proof (elab_append g x xs' s s (option_map snd raw) (eq_sym Eg1) Hx Hxs') as Hv. rewrite Hge in Hv. destruct Hv as (Hne' & d & Ed1 & Ed2 & ->).
    right; left. cbn [In] in Hs. destruct Hs as [<-|[<-|[<-|[<-|[]]]]]; cbn in Ed1, Ed2; try discriminate. injection Ed2 as <-. split; [destruct xs'; [congruence|cbn [List.length]; lia]|congruence].
  - pose proof (elab_variadic g TyLitStr xs s (option_map snd raw) (eq_sym Eg1) Hxne Hxs) as Hv. rewrite Hge in Hv. destruct Hv as (d & Ed & _).
    left. apply Hsame. rewrite <- Eg1, E1. cbn [In] in Hs. repeat (destruct Hs as [<-|Hs]; [cbn in Ed; try discriminate; reflexivity|]). contradiction.
  - pose proof (elab_variadic g TyLitInt xs s (option_map snd raw) (eq_sym Eg1) Hxne Hxs) as Hv. rewrite Hge in Hv. destruct Hv as (d & Ed & _).
    left. apply Hsame. rewrite <- Eg1, E1. cbn [In] in Hs. repeat (destruct Hs as [<-|Hs]; [cbn in Ed; try discriminate; reflexivity|]). contradiction.
  - pose proof (elab_variadic g TyTokens xs s (option_map snd raw) (eq_sym Eg1) Hxne Hxs) as Hv. rewrite Hge in Hv. destruct Hv as (d & Ed & ->).
    cbn [In] in Hs. repeat (destruct Hs as [<-|Hs]; [cbn in Ed; injection Ed as <-; first [right; right; split; [lia|congruence] | left; apply Hsame; congruence]|]). contradiction.
Qed.

Lemma append_settled G id arg args raw : args <> [] -> behaves (elab env G arg) TyIdent ->
  Forall (fun arg => behaves (elab env G arg) TyTokens) args -> settled_at G (ECall id (txt "concat") (arg :: args) raw) TyIdent.
Proof.
  intros Hne Hx Hall. destruct (concat_variants O seed first) as [k Hk]. fold env in Hk.
  set (fs := number_variants (txt "concat") k (concat_rows O)) in *.
  set (x := elab env G arg) in *. set (xs := map (elab env G) args).
  assert (Hxs : Forall (fun x => behaves x TyTokens) xs) by (unfold xs; rewrite Forall_map; exact Hall).
  assert (Hxne : xs <> []) by (unfold xs; destruct args; [congruence|discriminate]).
  assert (Hrow : exists im, In ([TyIdent; TyVariadic TyTokens], TyIdent, im) (concat_rows O)) by (eexists; unfold concat_rows; cbn [In]; eauto 6).
  destruct Hrow as [im Hrow]. destruct (number_variants_map _ (txt "concat") k _ _ _ Hrow) as (f & Hf & E1 & E2 & _). fold fs in Hf.
  pose proof (elab_append f x xs TyIdent TyTokens (option_map snd raw) E1 Hx Hxs) as Hu.
  destruct (elab_func f (x :: xs) (option_map snd raw) None) as [[c tes]|] eqn:Ef; [|destruct Hu as [Hu|[Hu|Hu]]; [contradiction|discriminate|discriminate]].
  destruct Hu as (_ & d & _ & Ed & ->). injection Ed as <-. change (0 * 2 * N.of_nat (List.length xs))%N with 0%N in Ef.
  rewrite <- E2.
  apply (settled_crit G id (txt "concat") (arg :: args) raw fs f tes Hk (variants_ids _ _ Hk) Hf Ef); [rewrite E2; exact I|].
  intros g c tes' Hg Hge. cbn [map] in Hge. fold x xs in Hge.
  pose proof (number_variants_in _ _ _ _ Hg) as [Hgr _].
  assert (Hsame : f_arg_types g = f_arg_types f -> g = f).
  { intros E. apply (number_types (concat_rows O) (txt "concat") k g f); [unfold concat_rows; distinct|exact Hg|exact Hf|exact E]. }
  assert (Hcost : forall t, f_arg_types g = [TyVariadic t] -> t = TyTokens /\ (8 <= c)%N).
  { intros t Ht. apply elab_func_inv in Hge as (c0 & Ec0 & [(ts & Hr & _)|(_ & ps & c' & Hps & Hargs & ->)]); [rewrite Ht in Hr; discriminate|].
    assert (Hp : params g (List.length (x :: xs)) = Some ((t, 2%N) :: repeat (t, 2%N) (List.length xs))).
    { unfold params, variadic_arg_type, non_variadic_arg_types, num_args. rewrite Ht. reflexivity. }
    rewrite Hp in Hps. injection Hps as <-. cbn [elab_args] in Hargs. pose proof (Hx t) as Hxt.
    pose proof (elab_args_repeat t 2 TyTokens xs Hxs) as Hr.
    destruct (elab_args _ xs) as [[c1 tes1]|]; [|destruct (x (Some t)) as [[]|]; discriminate].
    destruct Hr as [[Hr _]|(d & Ed & _)]; [contradiction|].
    destruct (coercion_cost TyIdent t) as [d'|] eqn:Ed'; [|destruct Hxt as [er Hxt]; rewrite Hxt in Hargs; discriminate].
    destruct Hxt as [te Hxt]. rewrite Hxt in Hargs. injection Hargs as <- _.
    destruct t; cbn in Ed, Ed'; try discriminate.
    - split; [reflexivity|]. injection Ed' as <-. lia.
    - exfalso. unfold fs in Hg. apply number_variants_in in Hg as [Hg _]. rewrite Ht in Hg. unfold concat_rows in Hg. cbn [In] in Hg.
      repeat (destruct Hg as [E|Hg]; [discriminate E|]). contradiction. }
  unfold concat_rows in Hgr. cbn [In] in Hgr.
  destruct Hgr as [E|[E|[E|[E|[E|[]]]]]]; injection E as Eg1 Eg2 _.
  - destruct (Hcost _ (eq_sym Eg1)) as [E _]. discriminate.
  - left. apply Hsame. congruence.
  - destruct (Hcost _ (eq_sym Eg1)) as [E _]. discriminate.
  - destruct (Hcost _ (eq_sym Eg1)) as [E _]. discriminate.
  - destruct (Hcost _ (eq_sym Eg1)) as [_ Hc]. right; right. split; [lia|congruence].
Qed.

Definition meets (G : tenv) (e : expr) : Prop := forall s, steady G e s ->
  (exists id v, e = EValue id v /\ s = static_type G v) \/ settled_at G e s.

Lemma meets_behaves G e s : meets G e -> steady G e s -> behaves (elab env G e) s.
Proof.
  intros H Hs. destruct (H s Hs) as [(i & v & -> & ->)|H']; [apply leaf_behaves|apply settled_behaves; exact H'].
Qed.

Lemma meets_all G args s : Forall (meets G) args -> Forall (fun e => steady G e s) args -> Forall (fun e => behaves (elab env G e) s) args.
Proof.
  intros H1 H2. rewrite Forall_forall in *. intros e He. apply meets_behaves; auto.
Qed.

Lemma steady_meets G e : meets G e.
Proof.
  induction e as [id v|id name args raw IH] using expr_ind'; intros s H.
  - left. inversion H; subst. eauto.
  - right. inversion H as [|? ? arg ? ? Hname Ht Harg|? ? r|? ? r|? arg ? t Ht Harg|? arg ? Harg|? ? arg ? ? Hname Harg|? ? ? ? Hne Ht Hargs|? arg args' ? Hne Harg Hargs]; subst.
    + apply Forall_inv in IH. apply case_settled; [assumption|assumption|apply meets_behaves; assumption].
    + eapply source_settled; [reflexivity|exact I].
    + eapply source_settled; [reflexivity|exact I].
    + apply Forall_inv in IH. apply normalize2_settled with t; [assumption|apply meets_behaves; assumption].
    + apply Forall_inv in IH. apply hash_settled. apply meets_behaves; assumption.
    + apply Forall_inv in IH. apply reader_settled; [assumption|apply meets_behaves; assumption].
    + apply concat_settled; [assumption|assumption|apply meets_all; assumption].
    + apply Forall_cons_iff in IH as [IH1 IH2]. apply append_settled; [assumption|apply meets_behaves; assumption|apply meets_all; assumption].
Qed.

Lemma steady_settled G id name args raw s : steady G (ECall id name args raw) s ->
  settled env G (ECall id name args raw) /\
  exists te, elab env G (ECall id name args raw) None = inl (te, 0%N) /\ target_of te = s.
Proof.
  intros H. destruct (steady_meets G _ s H) as [(i & v & E & _)|(f & tes & E1 & E2 & E3)]; [discriminate|]. subst s. split.
  - exists f, tes. split; assumption.
  - eexists. split; [exact E2|reflexivity].
Qed.
End Builtins.

(** ** For the modelled pipeline *)
Lemma naming_settled O seed n pre a d post post' c :
  NoDup (item_ids (pre ++ (a, d) :: post)) -> NoDup (item_ids (pre ++ (a, d) :: post')) ->
  (forall tis, elab_items (new_initialized O seed n) [] pre = Ok tis -> settled (new_initialized O seed n) (tenv_of tis) d) ->
  expanded_items a d post post' -> (forall y, In y (mentions d) -> y <> a /\ ~ In y (map fst post)) ->
  make_substitutions O (new_initialized O seed n) {| spec_items := pre ++ (a, d) :: post; is_comma_used := c |} =
  make_substitutions O (new_initialized O seed n) {| spec_items := pre ++ (a, d) :: post'; is_comma_used := c |}.
Proof.
  intros Hnd Hnd' Hs Hi Hw. rewrite !make_substitutions_spec by assumption. cbn [spec_items].
  change (pre ++ (a, d) :: post) with (pre ++ [(a, d)] ++ post).
  change (pre ++ (a, d) :: post') with (pre ++ [(a, d)] ++ post'). rewrite !app_assoc.
  apply bindings_expand; assumption.
Qed.
