(** Consequences of the elaboration semantics, for every function table. *)
From Verif Require Import Base BaseFacts Token Types Values Ast Env Resolve Eval SpecElab SpecScope SpecPrograms ElabProofs.
From Coq Require Import Permutation.

(** ** Composition of item lists *)
Lemma elab_items_app env items1 : forall G items2,
  elab_items env G (items1 ++ items2) =
  let! t1 := elab_items env G items1 in
  let! t2 := elab_items env (tenv_of t1 ++ G) items2 in Ok (t1 ++ t2).
Proof.
  induction items1 as [|[name e] items1 IH]; intros G items2; cbn [app elab_items bind].
  - cbn. destruct (elab_items env G items2); reflexivity.
  - destruct (elab env G e None) as [[te c]|er]; [|reflexivity].
    destruct (assoc_str name G); [reflexivity|]. rewrite IH.
    destruct (elab_items env ((name, target_of te) :: G) items1) as [t1| |]; cbn [bind]; try reflexivity.
    unfold tenv_of. cbn [map rev fst snd]. rewrite <- app_assoc. cbn [app].
    destruct (elab_items env _ items2); reflexivity.
Qed.

Lemma run_items_app O seed t1 : forall ctx t2,
  run_items O seed ctx (t1 ++ t2) =
  let! b1 := run_items O seed ctx t1 in
  let! b2 := run_items O seed (rev b1 ++ ctx) t2 in Ok (b1 ++ b2).
Proof.
  induction t1 as [|[name te] t1 IH]; intros ctx t2; cbn [app run_items bind].
  - cbn. destruct (run_items O seed ctx t2); reflexivity.
  - destruct (run O seed ctx te) as [v| |]; try reflexivity. cbn [bind]. rewrite IH.
    destruct (run_items O seed ((name, v) :: ctx) t1) as [b1| |]; cbn [bind]; try reflexivity.
    cbn [rev]. rewrite <- app_assoc. cbn [app].
    destruct (run_items O seed _ t2); reflexivity.
Qed.

Lemma bind_Ok {A B} (x : res A) (f : A -> res B) b : bind x f = Ok b <-> exists a, x = Ok a /\ f a = Ok b.
Proof.
  destruct x; cbn; split; try discriminate.
  - eauto.
  - intros (a' & H & H'). congruence.
  - intros (a' & H & _). discriminate.
  - intros (a' & H & _). discriminate.
Qed.

(** ** C06 *)
Lemma elab_errors env G e : forall ex er, elab env G e ex = inr er ->
  er = TypeError \/ (exists x, er = UndefinedFunctionError x) \/ (exists x, er = SignatureError x).
Proof.
  destruct e as [id v|id name args raw]; cbn [elab]; intros ex er.
  - destruct (coercion_cost _ _); intros H; [discriminate|injection H as <-; auto].
  - destruct (get_func_variants env name); [|intros H; injection H as <-; eauto].
    destruct (best _) as [[[c f] tes]|]; intros H; [discriminate|injection H as <-; eauto].
Qed.

Lemma elab_items_names env items : forall G tis, elab_items env G items = Ok tis ->
  map fst tis = map fst items.
Proof.
  induction items as [|[name e] items IH]; intros G tis H; cbn [elab_items] in H; [injection H as <-; reflexivity|].
  destruct (elab env G e None) as [[te c]|er]; [|discriminate].
  destruct (assoc_str name G); [discriminate|]. apply bind_Ok in H as (t & H1 & H2). injection H2 as <-.
  cbn. f_equal. eapply IH; eassumption.
Qed.

Lemma run_items_names O seed tis : forall ctx bs, run_items O seed ctx tis = Ok bs -> map fst bs = map fst tis.
Proof.
  induction tis as [|[name te] tis IH]; intros ctx bs H; cbn [run_items] in H; [injection H as <-; reflexivity|].
  apply bind_Ok in H as (v & H1 & H). apply bind_Ok in H as (b & H2 & H). injection H as <-. cbn. f_equal. eauto.
Qed.

Lemma assoc_str_In {A} x (l : list (str * A)) : assoc_str x l <> None <-> In x (map fst l).
Proof.
  induction l as [|[y a] l IH]; cbn; [split; [congruence|contradiction]|].
  destruct (str_eqb x y) eqn:E.
  - apply str_eqb_eq in E as ->. split; [auto|discriminate].
  - rewrite IH. split; [auto|]. intros [<-|H]; [rewrite str_eqb_refl in E; discriminate|exact H].
Qed.

Lemma assoc_str_None {A} x (l : list (str * A)) : assoc_str x l = None <-> ~ In x (map fst l).
Proof. rewrite <- assoc_str_In. destruct (assoc_str x l); split; intros; try congruence; exfalso; apply H; discriminate. Qed.

Lemma tenv_of_names tis : map fst (tenv_of tis) = rev (map fst tis).
Proof. unfold tenv_of. rewrite map_rev, map_map. reflexivity. Qed.

Lemma elab_items_NoDup env items : forall G tis, elab_items env G items = Ok tis ->
  NoDup (map fst items) /\ (forall x, In x (map fst items) -> ~ In x (map fst G)).
Proof.
  induction items as [|[name e] items IH]; intros G tis H; cbn [elab_items] in H; [split; [constructor|contradiction]|].
  destruct (elab env G e None) as [[te c]|er]; [|discriminate].
  destruct (assoc_str name G) eqn:Ea; [discriminate|]. apply bind_Ok in H as (t & H1 & H2).
  destruct (IH _ _ H1) as [Hnd Hdisj]. cbn in Hdisj |- *. split.
  - constructor; [|exact Hnd]. intros Hin. apply (Hdisj name Hin). auto.
  - intros x [<-|Hx]; [apply assoc_str_None; exact Ea|]. intros Hg. apply (Hdisj x Hx). auto.
Qed.

Lemma elab_items_redefined env items : forall G x,
  elab_items env G items = Err (RedefinedNameError x) <->
  exists pre e post tis te, items = pre ++ (x, e) :: post /\ elab_items env G pre = Ok tis /\
    In x (map fst G ++ map fst pre) /\ elab env (tenv_of tis ++ G) e None = inl te.
Proof.
  induction items as [|[name e] items IH]; intros G x; cbn [elab_items].
  - split; [discriminate|]. intros (pre & e & post & tis & te & H & _). destruct pre; discriminate.
  - split.
    + destruct (elab env G e None) as [[te c]|er] eqn:Ee.
      * destruct (assoc_str name G) eqn:Ea.
        -- intros H; injection H as <-. exists [], e, items, [], (te, c). repeat split; try assumption.
           cbn. rewrite app_nil_r. apply assoc_str_In. congruence.
        -- intros H. destruct (elab_items env ((name, target_of te) :: G) items) as [tis| |] eqn:Ei; try discriminate.
           cbn in H. injection H as ->. apply IH in Ei as (pre & e' & post & tis & te' & -> & H1 & H2 & H3).
           exists ((name, e) :: pre), e', post, ((name, te) :: tis), te'. split; [reflexivity|]. split.
           { cbn [elab_items]. rewrite Ee, Ea, H1. reflexivity. }
           split; [|unfold tenv_of in *; cbn [map rev fst snd]; rewrite <- app_assoc; exact H3].
           cbn in H2 |- *. apply in_or_app. destruct H2 as [->|H2]; [right; left; reflexivity|].
           apply in_app_or in H2 as [H2|H2]; [left|right; right]; exact H2.
      * intros H. injection H as ->. apply elab_errors in Ee as [He|[[y He]|[y He]]]; discriminate.
    + intros (pre & e' & post & tis & te' & Heq & H1 & H2 & H3). destruct pre as [|[name' e''] pre].
      * cbn in Heq. injection Heq as -> -> ->. cbn in H1. injection H1 as <-. cbn in H3. rewrite H3.
        destruct te' as [te c]. cbn in H2. rewrite app_nil_r in H2. apply assoc_str_In in H2.
        destruct (assoc_str x G); [reflexivity|congruence].
      * cbn in Heq. injection Heq as <- <- ->. cbn [elab_items] in H1.
        destruct (elab env G e None) as [[te c]|er]; [|discriminate].
        destruct (assoc_str name G); [discriminate|].
        apply bind_Ok in H1 as (t & H1 & H1'). injection H1' as <-.
        assert (Hr : elab_items env ((name, target_of te) :: G) (pre ++ (x, e') :: post) = Err (RedefinedNameError x)).
        { apply IH. exists pre, e', post, t, te'. repeat split; try assumption.
          - cbn in H2 |- *. apply in_app_or in H2 as [H2|[H2|H2]]; [right; apply in_or_app; auto|auto|right; apply in_or_app; auto].
          - unfold tenv_of in *. cbn [map rev fst snd] in H3. rewrite <- app_assoc in H3. exact H3. }
        rewrite Hr. reflexivity.
Qed.

(** ** C07 *)
Lemma bindings_app O env pre post bs :
  bindings O env (pre ++ post) = Ok bs ->
  bindings O env pre = Ok (firstn (length pre) bs).
Proof.
  unfold bindings. rewrite elab_items_app. intros H.
  apply bind_Ok in H as (tis & H1 & H2). apply bind_Ok in H1 as (t1 & H1 & H3). apply bind_Ok in H3 as (t2 & H3 & H4).
  injection H4 as <-. rewrite run_items_app in H2.
  apply bind_Ok in H2 as (b1 & H2 & H5). apply bind_Ok in H5 as (b2 & H5 & H6). injection H6 as <-.
  rewrite H1. cbn [bind]. rewrite H2. f_equal.
  assert (Hl : length pre = length b1).
  { rewrite <- (map_length fst b1), (run_items_names _ _ _ _ _ H2), (elab_items_names _ _ _ _ H1), map_length. reflexivity. }
  rewrite Hl, firstn_app, Nat.sub_diag, firstn_all, app_nil_r. reflexivity.
Qed.

(** Elaboration looks at the types of mentioned identifiers only. *)
Section Rel.
(** Logical relation: elaboration under two environments. *)
Context (FR : func -> func -> Prop) (VR : value -> value -> Prop).

Inductive trel : texpr -> texpr -> Prop :=
| TrVal v v' t : VR v v' -> trel (TEVal v t) (TEVal v' t)
| TrCall f f' args args' t : FR f f' -> Forall2 trel args args' -> trel (TECall f args t) (TECall f' args' t).

Definition orel (a b : outcome) : Prop :=
  match a, b with
  | inl (te, c), inl (te', c') => trel te te' /\ c = c'
  | inr e, inr e' => e = e'
  | _, _ => False
  end.
Definition erel (a b : elaborator) : Prop := forall ex, orel (a ex) (b ex).

Hypothesis FR_sig : forall f f', FR f f' ->
  f_arg_types f = f_arg_types f' /\ f_out_type f = f_out_type f'.
Hypothesis FR_order : forall f f' g g', FR f f' -> FR g g' -> (f_id f <? f_id g)%N = (f_id f' <? f_id g')%N.

Lemma elab_args_rel ps : forall args args', Forall2 erel args args' ->
  match elab_args ps args, elab_args ps args' with
  | Some (c, tes), Some (c', tes') => c = c' /\ Forall2 trel tes tes'
  | None, None => True
  | _, _ => False
  end.
Proof.
  induction ps as [|[t m] ps IH]; intros args args' H; [cbn; auto|].
  destruct H as [|a a' args args' Ha Hargs]; [cbn; auto|]. cbn [elab_args].
  specialize (Ha (Some t)). unfold orel in Ha. specialize (IH _ _ Hargs).
  destruct (a (Some t)) as [[te c]|], (a' (Some t)) as [[te' c']|]; try contradiction; [|auto].
  destruct Ha as [Ht ->].
  destruct (elab_args ps args) as [[d tes]|], (elab_args ps args') as [[d' tes']|]; try contradiction; [|auto].
  destruct IH as [-> IH]. auto.
Qed.

Definition rawrel (raw raw' : option (list tt)) : Prop :=
  match raw, raw' with
  | Some ts, Some ts' => VR (VRaw ts) (VRaw ts')
  | None, None => True
  | _, _ => False
  end.

Lemma elab_func_rel f f' args args' raw raw' ex :
  FR f f' -> Forall2 erel args args' -> rawrel raw raw' ->
  match elab_func f args raw ex, elab_func f' args' raw' ex with
  | Some (c, tes), Some (c', tes') => c = c' /\ Forall2 trel tes tes'
  | None, None => True
  | _, _ => False
  end.
Proof.
  intros Hf Hargs Hraw. destruct (FR_sig _ _ Hf) as [Ea Eo]. unfold elab_func, params, non_variadic_arg_types, variadic_arg_type, num_args.
  rewrite Ea, Eo.
  assert (Hlen : length args = length args') by (clear - Hargs; induction Hargs; cbn; congruence).
  rewrite <- Hlen.
  destruct (match ex with Some t => coercion_cost (f_out_type f') t | None => Some 0%N end) as [c0|]; [|exact I].
  set (P := match match find is_variadic_ty (f_arg_types f') with Some (TyVariadic t) => Some t | _ => None end with
            | Some t => _ | None => _ end).
  assert (Hgen : match match P with None => None | Some ps => match elab_args ps args with Some (c, tes) => Some ((c0 + c)%N, tes) | None => None end end,
      match P with None => None | Some ps => match elab_args ps args' with Some (c, tes) => Some ((c0 + c)%N, tes) | None => None end end with
    | Some (c, tes), Some (c', tes') => c = c' /\ Forall2 trel tes tes'
    | None, None => True
    | _, _ => False
    end).
  { destruct P as [ps|]; [|exact I]. pose proof (elab_args_rel ps _ _ Hargs) as H.
    destruct (elab_args ps args) as [[d tes]|], (elab_args ps args') as [[d' tes']|]; try contradiction; [|exact I].
    destruct H as [-> H]. auto. }
  unfold rawrel in Hraw.
  destruct (f_arg_types f') as [|t0 ts0]; [exact Hgen|].
  destruct t0; try exact Hgen. destruct ts0; try exact Hgen.
  destruct raw, raw'; try contradiction; [|exact Hgen].
  split; [reflexivity|]. constructor; [|constructor]. constructor. exact Hraw.
Qed.

Definition entry_rel (x y : entry) : Prop :=
  let '(c, f, tes) := x in let '(c', f', tes') := y in c = c' /\ FR f f' /\ Forall2 trel tes tes'.

Lemma viable_rel fs fs' args args' raw raw' ex :
  Forall2 FR fs fs' -> Forall2 erel args args' -> rawrel raw raw' ->
  Forall2 entry_rel (viable fs args raw ex) (viable fs' args' raw' ex).
Proof.
  intros Hfs Hargs Hraw. induction Hfs as [|f f' fs fs' Hf Hfs IH]; cbn [viable]; [constructor|].
  pose proof (elab_func_rel f f' args args' raw raw' ex Hf Hargs Hraw) as H.
  destruct (elab_func f args raw ex) as [[c tes]|], (elab_func f' args' raw' ex) as [[c' tes']|]; try contradiction; [|exact IH].
  destruct H as [-> H]. constructor; [|exact IH]. cbn. auto.
Qed.

Lemma entry_lt_rel a a' b b' : entry_rel a b -> entry_rel a' b' -> entry_lt a a' = entry_lt b b'.
Proof.
  destruct a as [[c f] t], a' as [[c1 f1] t1], b as [[c2 f2] t2], b' as [[c3 f3] t3].
  intros (-> & Hf & _) (-> & Hf1 & _). unfold entry_lt, betterb. cbn.
  destruct (FR_sig _ _ Hf) as [Ea _], (FR_sig _ _ Hf1) as [Ea1 _].
  unfold is_variadic, num_args. rewrite Ea, Ea1, (FR_order _ _ _ _ Hf Hf1). reflexivity.
Qed.

Lemma best_rel l l' : Forall2 entry_rel l l' ->
  match best l, best l' with Some a, Some b => entry_rel a b | None, None => True | _, _ => False end.
Proof. intros H. rewrite !best_leftmost. apply leftmost_rel; [exact entry_lt_rel|exact H]. Qed.

(** Expressions of the same form with related leaves. *)
Context (env env' : environment) (G G' : tenv).
Hypothesis funcs_rel : forall name,
  match get_func_variants env name, get_func_variants env' name with
  | Some fs, Some fs' => Forall2 FR fs fs'
  | None, None => True
  | _, _ => False
  end.

Inductive xrel : expr -> expr -> Prop :=
| XrVal id id' v v' : VR v v' -> static_type G v = static_type G' v' -> xrel (EValue id v) (EValue id' v')
| XrCall id id' name args args' raw raw' :
    Forall2 xrel args args' -> rawrel (option_map snd raw) (option_map snd raw') ->
    xrel (ECall id name args raw) (ECall id' name args' raw').

Lemma elab_rel e : forall e', xrel e e' -> erel (elab env G e) (elab env' G' e').
Proof.
  induction e as [id v|id name args raw IH] using expr_ind'; intros e' H ex;
    inversion H as [? ? ? ? Hv Hs|? ? ? ? ? ? ? Hargs Hraw]; subst; cbn [elab].
  - rewrite Hs. destruct (coercion_cost _ _); [|reflexivity]. cbn. split; [constructor; exact Hv|reflexivity].
  - assert (Ha : Forall2 erel (map (elab env G) args) (map (elab env' G') args')).
    { clear - IH Hargs. revert args' Hargs. induction IH as [|a args Ha _ IHa]; intros args' Hargs; inversion Hargs; subst; cbn; constructor; auto. }
    specialize (funcs_rel name).
    destruct (get_func_variants env name) as [fs|], (get_func_variants env' name) as [fs'|]; try contradiction; [|reflexivity].
    pose proof (best_rel _ _ (viable_rel fs fs' _ _ _ _ ex funcs_rel Ha Hraw)) as Hb.
    destruct (best (viable fs _ _ ex)) as [[[c f] tes]|], (best (viable fs' _ _ ex)) as [[[c' f'] tes']|]; try contradiction; [|reflexivity].
    destruct Hb as (-> & Hf & Ht). destruct (FR_sig _ _ Hf) as [_ Eo]. cbn. rewrite Eo. split; [constructor; assumption|reflexivity].
Qed.
End Rel.

(** ** Same definitions up to ids (C09) *)
Lemma trel_target FR VR te te' : trel FR VR te te' -> target_of te = target_of te'.
Proof. intros H; inversion H; reflexivity. Qed.

Definition same_func (f f' : func) : Prop :=
  f_arg_types f = f_arg_types f' /\ f_out_type f = f_out_type f' /\ f_impl f = f_impl f'.

Lemma trel_run O seed (FR : func -> func -> Prop) te : (forall f f', FR f f' -> same_func f f') ->
  forall te' ctx, trel FR eq te te' -> run O seed ctx te = run O seed ctx te'.
Proof.
  intros HF. induction te as [v t|f args t IH] using texpr_ind'; intros te' ctx H;
    inversion H as [? ? ? Hv|? ? ? ? ? Hf Hargs]; subst; [reflexivity|]. cbn [run].
  assert (E : mapM (run O seed ctx) args = mapM (run O seed ctx) args').
  { clear H. revert args' Hargs. induction IH as [|a args Ha _ IHa]; intros args' Hargs; inversion Hargs; subst; [reflexivity|].
    cbn. rewrite (Ha _ ctx H1). destruct (run O seed ctx y); try reflexivity. cbn [bind]. rewrite (IHa _ H3). reflexivity. }
  rewrite E. destruct (HF _ _ Hf) as (_ & _ & ->). reflexivity.
Qed.

Lemma trel_run_items O seed (FR : func -> func -> Prop) tis : (forall f f', FR f f' -> same_func f f') ->
  forall tis' ctx, Forall2 (fun a b => fst a = fst b /\ trel FR eq (snd a) (snd b)) tis tis' ->
  run_items O seed ctx tis = run_items O seed ctx tis'.
Proof.
  intros HF. induction tis as [|[n te] tis IH]; intros tis' ctx H; inversion H as [|? [n' te'] ? ? [Hn Ht] Hr]; subst; [reflexivity|].
  cbn in Hn, Ht. subst n'. cbn [run_items]. rewrite (trel_run O seed FR te HF te' ctx Ht).
  destruct (run O seed ctx te') as [v| |]; try reflexivity. cbn [bind]. rewrite (IH _ ((n, v) :: ctx) Hr). reflexivity.
Qed.

Section SameItems.
Context (FR : func -> func -> Prop) (env env' : environment).
Hypothesis FR_sig : forall f f', FR f f' -> same_func f f'.
Hypothesis FR_order : forall f f' g g', FR f f' -> FR g g' -> (f_id f <? f_id g)%N = (f_id f' <? f_id g')%N.
Hypothesis funcs_rel : forall name,
  match get_func_variants env name, get_func_variants env' name with
  | Some fs, Some fs' => Forall2 FR fs fs'
  | None, None => True
  | _, _ => False
  end.

Lemma erase_xrel G e : forall e', erase e = erase e' -> xrel eq G G e e'.
Proof.
  induction e as [id v|id name args raw IH] using expr_ind'; intros [id' v'|id' name' args' raw'] H; cbn in H; try discriminate.
  - injection H as ->. constructor; reflexivity.
  - injection H as -> Ha Hr. constructor.
    + clear Hr. revert args' Ha. induction IH as [|a args Ha _ IHa]; intros [|a' args'] H; cbn in H; try discriminate; constructor.
      * apply Ha. congruence.
      * apply IHa. congruence.
    + destruct raw as [[r ts]|], raw' as [[r' ts']|]; cbn in Hr |- *; try discriminate; [|exact I]. congruence.
Qed.

Lemma elab_items_same items : forall items' G, erase_items items = erase_items items' ->
  match elab_items env G items, elab_items env' G items' with
  | Ok tis, Ok tis' => Forall2 (fun a b => fst a = fst b /\ trel FR eq (snd a) (snd b)) tis tis'
  | Err e, Err e' => e = e'
  | _, _ => False
  end.
Proof.
  induction items as [|[n e] items IH]; intros [|[n' e'] items'] G H; cbn in H; try discriminate; [constructor|].
  injection H as <- He Hi. cbn [elab_items].
  pose proof (elab_rel FR eq (fun f f' H => match FR_sig f f' H with conj a (conj b _) => conj a b end)
    FR_order env env' G G funcs_rel e e' (erase_xrel G e e' He) None) as Hr. unfold orel in Hr.
  destruct (elab env G e None) as [[te c]|er], (elab env' G e' None) as [[te' c']|er']; try contradiction; [|exact Hr].
  destruct Hr as [Ht ->]. destruct (assoc_str n G); [reflexivity|]. rewrite <- (trel_target _ _ _ _ Ht).
  specialize (IH items' ((n, target_of te) :: G) Hi).
  destruct (elab_items env _ items), (elab_items env' _ items'); try contradiction; cbn [bind]; [|exact IH].
  constructor; [|exact IH]. auto.
Qed.

Lemma bindings_same O items items' : e_seed env = e_seed env' -> erase_items items = erase_items items' ->
  bindings O env items = bindings O env' items'.
Proof.
  intros Hs H. unfold bindings. pose proof (elab_items_same items items' [] H) as Hr.
  destruct (elab_items env [] items), (elab_items env' [] items'); try contradiction; cbn [bind]; [|congruence].
  rewrite Hs. apply (trel_run_items O _ FR); assumption.
Qed.
End SameItems.

Lemma assoc_str_map {A B} (g : A -> B) x (l : list (str * A)) :
  assoc_str x (map (fun r => (fst r, g (snd r))) l) = option_map g (assoc_str x l).
Proof. induction l as [|[y a] l IH]; [reflexivity|]. cbn. destruct (str_eqb x y); [reflexivity|exact IH]. Qed.

Lemma make_subst_renumber O env rho spec spec' :
  order_preserving rho ->
  NoDup (item_ids (spec_items spec)) -> NoDup (item_ids (spec_items spec')) ->
  erase_items (spec_items spec) = erase_items (spec_items spec') ->
  make_substitutions O env spec = make_substitutions O (renumber rho env) spec'.
Proof.
  intros Hrho H1 H2 He. rewrite !make_substitutions_spec by assumption.
  apply (bindings_same (fun f f' => f' = renumber_func rho f) env (renumber rho env)).
  - intros f f' ->. repeat split.
  - intros f f' g g' -> ->. cbn. destruct (N.ltb_spec (f_id f) (f_id g)) as [H|H]; symmetry.
    + apply N.ltb_lt. apply (proj1 (Hrho _ _)). exact H.
    + apply N.ltb_ge. apply N.le_ngt. intros Hlt. apply (proj2 (Hrho _ _)) in Hlt. lia.
  - intros name. unfold get_func_variants, renumber. cbn. rewrite assoc_str_map.
    destruct (assoc_str name (e_funcs env)) as [fs|]; cbn; [|exact I].
    induction fs; cbn; constructor; auto.
  - reflexivity.
  - exact He.
Qed.

(** ** Mentioned identifiers (C07) *)
Lemma elab_mentions env e : forall G G' ex,
  (forall x, In x (mentions e) -> assoc_str x G = assoc_str x G') -> elab env G e ex = elab env G' e ex.
Proof.
  intros G G' ex H.
  assert (Hx : xrel eq G G' e e).
  { revert H. induction e as [id v|id name args raw IH] using expr_ind'; intros H.
    - constructor; [reflexivity|]. destruct v; try reflexivity. cbn. rewrite H by (left; reflexivity). reflexivity.
    - constructor; [|destruct raw; cbn; auto]. cbn in H.
      induction IH as [|a args Ha _ IHa]; constructor.
      + apply Ha. intros x Hx. apply H. cbn. apply in_or_app. auto.
      + apply IHa. intros x Hx. apply H. cbn. apply in_or_app. auto. }
  pose proof (elab_rel eq eq (fun f f' H => match H with eq_refl => conj eq_refl eq_refl end)
    (fun f f' g g' H H' => match H, H' with eq_refl, eq_refl => eq_refl end) env env G G') as Hr.
  assert (Hf : forall name, match get_func_variants env name, get_func_variants env name with
     | Some fs, Some fs' => Forall2 eq fs fs' | None, None => True | _, _ => False end).
  { intros name. destruct (get_func_variants env name) as [fs|]; [|exact I]. induction fs; constructor; auto. }
  specialize (Hr Hf e e Hx ex). unfold orel in Hr.
  assert (Heq : forall te te', trel eq eq te te' -> te = te').
  { clear. induction te as [v t|f args t IH] using texpr_ind'; intros te' H; inversion H as [|? ? ? ? ? Hf Hargs]; subst; [reflexivity|].
    f_equal. clear H. revert args' Hargs. induction IH as [|a args Ha _ IHa]; intros args' Hargs; inversion Hargs; subst; [reflexivity|].
    f_equal; auto. }
  destruct (elab env G e ex) as [[te c]|er], (elab env G' e ex) as [[te' c']|er']; try contradiction; [|congruence].
  destruct Hr as [Ht ->]. rewrite (Heq _ _ Ht). reflexivity.
Qed.

(** Leaves of elaborated terms. *)
Fixpoint tmentions (te : texpr) : list str :=
  match te with
  | TEVal (VIdent x) _ => [x]
  | TEVal _ _ => []
  | TECall _ args _ => flat_map tmentions args
  end.

Lemma run_mentions O seed te : forall ctx ctx',
  (forall x, In x (tmentions te) -> assoc_str x ctx = assoc_str x ctx') -> run O seed ctx te = run O seed ctx' te.
Proof.
  induction te as [v t|f args t IH] using texpr_ind'; intros ctx ctx' H; cbn [run].
  - destruct v; try reflexivity. rewrite H by (left; reflexivity). reflexivity.
  - assert (E : mapM (run O seed ctx) args = mapM (run O seed ctx') args); [|rewrite E; reflexivity].
    cbn in H. induction IH as [|a args Ha _ IHa]; [reflexivity|]. cbn.
    rewrite (Ha ctx ctx') by (intros x Hx; apply H; cbn; apply in_or_app; auto).
    destruct (run O seed ctx' a); try reflexivity. cbn [bind].
    rewrite IHa by (intros x Hx; apply H; cbn; apply in_or_app; auto). reflexivity.
Qed.

Lemma best_in l x : best l = Some x -> In x l.
Proof. rewrite best_leftmost. apply leftmost_in. Qed.

Lemma viable_in fs args raw ex c f tes :
  In (c, f, tes) (viable fs args raw ex) <-> In f fs /\ elab_func f args raw ex = Some (c, tes).
Proof.
  induction fs as [|g fs IH]; cbn [viable]; [cbn; tauto|].
  destruct (elab_func g args raw ex) as [[d tes']|] eqn:E; cbn [In]; rewrite IH; split.
  - intros [H|[H1 H2]]; [injection H as -> -> ->; auto|auto].
  - intros [[->|H] H2]; [left; congruence|auto].
  - intros [H1 H2]. auto.
  - intros [[->|H] H2]; [congruence|auto].
Qed.

Lemma elab_args_inv ps : forall args c tes, elab_args ps args = Some (c, tes) -> length ps = length args ->
  Forall2 (fun (pa : (ty * N) * elaborator) te => exists d, snd pa (Some (fst (fst pa))) = inl (te, d)) (combine ps args) tes.
Proof.
  induction ps as [|[t m] ps IH]; intros [|a args] c tes H Hl; cbn in Hl; try discriminate; cbn [elab_args combine] in *.
  - injection H as <- <-. constructor.
  - destruct (a (Some t)) as [[te d]|] eqn:E; [|discriminate].
    destruct (elab_args ps args) as [[c' tes']|] eqn:E'; [|discriminate]. injection H as <- <-.
    constructor; [cbn; eauto|]. eapply IH; [eassumption|congruence].
Qed.

Lemma params_length f n ps : params f n = Some ps -> length ps = n.
Proof.
  unfold params. pose proof (variadic_some f) as Hv. destruct (variadic_arg_type f).
  - destruct Hv as [_ Hl]. destruct (Nat.leb_spec (num_args f) n); [|discriminate]. intros Hp; injection Hp as <-.
    rewrite app_length, map_length, repeat_length. lia.
  - destruct Hv as [_ Hl]. destruct (Nat.eqb_spec (num_args f) n); [|discriminate]. intros Hp; injection Hp as <-.
    rewrite map_length. lia.
Qed.

(** What an accepted overload looks like. *)
Lemma elab_func_inv f args raw ex c tes : elab_func f args raw ex = Some (c, tes) ->
  exists c0, match ex with Some t => coercion_cost (f_out_type f) t | None => Some 0%N end = Some c0 /\
  ((exists ts, f_arg_types f = [TyRaw] /\ raw = Some ts /\ c = c0 /\ tes = [TEVal (VRaw ts) TyRaw]) \/
   (~ (f_arg_types f = [TyRaw] /\ raw <> None) /\
    exists ps c', params f (length args) = Some ps /\ elab_args ps args = Some (c', tes) /\ c = (c0 + c')%N)).
Proof.
  unfold elab_func. destruct (match ex with Some t => coercion_cost (f_out_type f) t | None => Some 0%N end) as [c0|]; [|discriminate].
  intros H. exists c0. split; [reflexivity|].
  assert (Hgen : match params f (length args) with
                 | None => None
                 | Some ps => match elab_args ps args with Some (c, tes) => Some ((c0 + c)%N, tes) | None => None end
                 end = Some (c, tes) ->
      exists ps c', params f (length args) = Some ps /\ elab_args ps args = Some (c', tes) /\ c = (c0 + c')%N).
  { destruct (params f (length args)) as [ps|]; [|discriminate]. destruct (elab_args ps args) as [[c' tes']|] eqn:E; [|discriminate].
    intros Hg; injection Hg as <- <-. eauto. }
  destruct (f_arg_types f) as [|t0 ts0] eqn:Ef; [right; split; [intros [? _]; discriminate|auto]|].
  destruct t0; try (right; split; [intros [? _]; discriminate|auto; fail]).
  destruct ts0; try (right; split; [intros [? _]; discriminate|auto; fail]).
  destruct raw as [ts|]; [|right; split; [intros [_ ?]; congruence|auto]].
  injection H as <- <-. left. eauto.
Qed.

Lemma Forall2_in_r {A B} (P : A -> B -> Prop) l l' b : Forall2 P l l' -> In b l' -> exists a, In a l /\ P a b.
Proof.
  induction 1 as [|x y l l' H _ IH]; intros Hin; [contradiction|]. destruct Hin as [<-|Hin]; [exists x; cbn; auto|].
  destruct (IH Hin) as (a & Ha & HP). exists a. cbn. auto.
Qed.

Lemma elab_tmentions env G e : forall ex te c, elab env G e ex = inl (te, c) -> incl (tmentions te) (mentions e).
Proof.
  induction e as [id v|id name args raw IH] using expr_ind'; cbn [elab]; intros ex te c H.
  - destruct (coercion_cost _ _); [|discriminate]. injection H as <- _. destruct v; cbn; apply incl_refl.
  - destruct (get_func_variants env name) as [fs|]; [|discriminate].
    destruct (best _) as [[[d f] tes]|] eqn:E; [|discriminate]. injection H as <- <-.
    apply best_in, viable_in in E as [_ E]. apply elab_func_inv in E as (c0 & _ & [(ts & _ & _ & _ & ->)|(_ & ps & c' & Hp & Ha & _)]).
    + cbn. apply incl_nil_l.
    + apply elab_args_inv in Ha; [|rewrite (params_length _ _ _ Hp), map_length; reflexivity].
      cbn. intros x Hx. apply in_flat_map in Hx as (te & Hte & Hx).
      destruct (Forall2_in_r _ _ _ _ Ha Hte) as ([p el] & Hin & (d' & Hd)).
      apply in_combine_r in Hin. apply in_map_iff in Hin as (a & <- & Hina). cbn in Hd.
      apply in_flat_map. exists a. split; [exact Hina|]. rewrite Forall_forall in IH. eapply IH; eassumption.
Qed.

Lemma assoc_str_skip {A} x (l l' : list (str * A)) : ~ In x (map fst l) -> assoc_str x (l ++ l') = assoc_str x l'.
Proof.
  induction l as [|[y a] l IH]; intros H; [reflexivity|]. cbn in *.
  rewrite str_eqb_neq by (intros ->; apply H; auto). apply IH. tauto.
Qed.

(** A definition that mentions none of the earlier aliases means what it means alone. *)
Lemma bindings_unmentioned O env pre a e bs v :
  (forall x, In x (mentions e) -> ~ In x (map fst pre)) ->
  bindings O env (pre ++ [(a, e)]) = Ok (bs ++ [(a, v)]) ->
  bindings O env [(a, e)] = Ok [(a, v)].
Proof.
  unfold bindings. rewrite elab_items_app. intros Hm H.
  apply bind_Ok in H as (tis & H1 & H2). apply bind_Ok in H1 as (t1 & H1 & H3). apply bind_Ok in H3 as (t2 & H3 & H4).
  injection H4 as <-. rewrite run_items_app in H2.
  apply bind_Ok in H2 as (b1 & H2 & H5). apply bind_Ok in H5 as (b2 & H5 & H6).
  rewrite app_nil_r in H3, H5. cbn [elab_items] in H3 |- *.
  rewrite (elab_mentions env e (tenv_of t1) []) in H3.
  2:{ intros x Hx. rewrite <- (app_nil_r (tenv_of t1)). apply assoc_str_skip.
      rewrite tenv_of_names, (elab_items_names _ _ _ _ H1), <- in_rev. auto. }
  destruct (elab env [] e None) as [[te c]|] eqn:Ee; [|discriminate].
  destruct (assoc_str a (tenv_of t1)); [discriminate|]. cbn in H3. injection H3 as <-. cbn [assoc_str bind].
  cbn [run_items] in H5 |- *.
  rewrite (run_mentions O (e_seed env) te (rev b1) []) in H5.
  2:{ intros x Hx. rewrite <- (app_nil_r (rev b1)). apply assoc_str_skip.
      rewrite map_rev, (run_items_names _ _ _ _ _ H2), (elab_items_names _ _ _ _ H1), <- in_rev.
      apply Hm. eapply elab_tmentions; eassumption. }
  destruct (run O (e_seed env) [] te) as [w| |]; cbn in H5 |- *; try discriminate.
  injection H5 as <-. injection H6 as H6. apply app_inj_tail in H6 as [_ H6]. congruence.
Qed.

(** ** Overloads (C08) *)
Lemma betterb_better a b : betterb a b = true <-> better a b.
Proof.
  destruct a as [c1 f1], b as [c2 f2]. unfold betterb, better.
  rewrite orb_true_iff, andb_true_iff, N.ltb_lt, N.eqb_eq, orb_true_iff, !andb_true_iff, negb_true_iff,
    eqb_true_iff, orb_true_iff, andb_true_iff, Nat.ltb_lt, Nat.eqb_eq, N.ltb_lt. tauto.
Qed.

Definition entry_key (x : entry) : key := let '(c, f, _) := x in (c, is_variadic f, num_args f, f_id f).
Lemma entry_lt_key a b : entry_lt a b = key_ltb (entry_key a) (entry_key b).
Proof. destruct a as [[c f] t], b as [[c' f'] t']. reflexivity. Qed.

Lemma key_total a b : key_ltb a b = false -> key_ltb b a = false -> a = b.
Proof.
  intros H1 H2.
  assert (H1' : ~ key_lt a b) by (rewrite <- key_ltb_lt, H1; discriminate).
  assert (H2' : ~ key_lt b a) by (rewrite <- key_ltb_lt, H2; discriminate).
  destruct a as [[[c1 v1] n1] i1], b as [[[c2 v2] n2] i2]. unfold key_lt in *.
  assert (c1 = c2) by (destruct (N.lt_total c1 c2) as [?|[?|?]]; [exfalso; apply H1'|assumption|exfalso; apply H2']; tauto). subst c2.
  assert (v1 = v2) by (destruct v1, v2; try reflexivity; exfalso; first [apply H2'; right; split; [reflexivity|left; reflexivity]|apply H1'; right; split; [reflexivity|left; reflexivity]]). subst v2.
  assert (n1 = n2) by (destruct (Nat.lt_total n1 n2) as [?|[?|?]]; [exfalso; apply H1'|assumption|exfalso; apply H2']; tauto). subst n2.
  assert (i1 = i2) by (destruct (N.lt_total i1 i2) as [?|[?|?]]; [exfalso; apply H1'|assumption|exfalso; apply H2']; tauto). subst i2. reflexivity.
Qed.

Lemma best_min l x : best l = Some x -> forall y, In y l -> entry_lt y x = false.
Proof.
  rewrite best_leftmost. apply leftmost_min.
  - intros a b c. rewrite !entry_lt_key. apply key_trans.
  - intros a b c. rewrite !entry_lt_key. apply key_neg_trans.
  - intros a. rewrite entry_lt_key. apply key_irrefl.
Qed.

Lemma best_none l : best l = None -> l = [].
Proof.
  rewrite best_leftmost. apply leftmost_none.
  - intros a b c. rewrite !entry_lt_key. apply key_trans.
  - intros a b c. rewrite !entry_lt_key. apply key_neg_trans.
Qed.

Lemma NoDup_map_inj {A B} (g : A -> B) l x y : NoDup (map g l) -> In x l -> In y l -> g x = g y -> x = y.
Proof.
  induction l as [|z l IH]; cbn; intros Hnd Hx Hy E; [contradiction|]. inversion Hnd as [|? ? Hz Hl]; subst.
  destruct Hx as [->|Hx], Hy as [->|Hy]; auto; exfalso; apply Hz; [rewrite E|rewrite <- E]; apply in_map; assumption.
Qed.

Lemma best_unique fs args raw ex c f tes : NoDup (map f_id fs) ->
  best (viable fs args raw ex) = Some (c, f, tes) <->
  (In f fs /\ elab_func f args raw ex = Some (c, tes) /\
   forall g d tes', In g fs -> elab_func g args raw ex = Some (d, tes') -> g = f \/ better (c, f) (d, g)).
Proof.
  intros Hnd. split.
  - intros H. pose proof (best_in _ _ H) as Hin. apply viable_in in Hin as [Hin He].
    split; [exact Hin|]. split; [exact He|]. intros g d tes' Hg Hge.
    pose proof (best_min _ _ H (d, g, tes') (proj2 (viable_in _ _ _ _ _ _ _) (conj Hg Hge))) as Hm.
    destruct (entry_lt (c, f, tes) (d, g, tes')) eqn:El; [right; apply betterb_better; exact El|].
    left. rewrite entry_lt_key in Hm, El. pose proof (key_total _ _ Hm El) as Hk. cbn in Hk.
    apply (NoDup_map_inj f_id fs); auto. congruence.
  - intros (Hin & He & Hall). destruct (best (viable fs args raw ex)) as [[[d g] tes']|] eqn:Eb.
    + pose proof (best_in _ _ Eb) as Hg. apply viable_in in Hg as [Hg Hge].
      destruct (Hall g d tes' Hg Hge) as [->|Hb]; [congruence|].
      pose proof (best_min _ _ Eb (c, f, tes) (proj2 (viable_in _ _ _ _ _ _ _) (conj Hin He))) as Hm.
      change (betterb (c, f) (d, g) = false) in Hm. apply betterb_better in Hb. rewrite Hm in Hb. discriminate.
    + apply best_none in Eb. assert (Hv : In (c, f, tes) (viable fs args raw ex)) by (apply viable_in; auto).
      rewrite Eb in Hv. contradiction.
Qed.

Lemma best_none_iff fs args raw ex :
  best (viable fs args raw ex) = None <-> forall f, In f fs -> elab_func f args raw ex = None.
Proof.
  split.
  - intros H f Hf. apply best_none in H. destruct (elab_func f args raw ex) as [[c tes]|] eqn:E; [|reflexivity].
    assert (Hv : In (c, f, tes) (viable fs args raw ex)) by (apply viable_in; auto). rewrite H in Hv. contradiction.
  - intros H. destruct (best _) as [[[c f] tes]|] eqn:E; [|reflexivity].
    apply best_in, viable_in in E as [Hf He]. rewrite (H f Hf) in He. discriminate.
Qed.

Lemma best_permutation fs fs' args raw ex : Permutation fs fs' -> NoDup (map f_id fs) ->
  best (viable fs args raw ex) = best (viable fs' args raw ex).
Proof.
  intros Hp Hnd.
  assert (Hnd' : NoDup (map f_id fs')) by (eapply Permutation_NoDup; [apply Permutation_map; exact Hp|exact Hnd]).
  destruct (best (viable fs args raw ex)) as [[[c f] tes]|] eqn:E.
  - symmetry. apply best_unique; [exact Hnd'|]. apply best_unique in E as (H1 & H2 & H3); [|exact Hnd].
    split; [eapply Permutation_in; eassumption|]. split; [exact H2|].
    intros g d tes' Hg. apply H3. eapply Permutation_in; [apply Permutation_sym|]; eassumption.
  - symmetry. rewrite best_none_iff in *. intros f Hf. apply E. eapply Permutation_in; [apply Permutation_sym|]; eassumption.
Qed.

(** Pointwise equal elaborators are interchangeable. *)
Lemma elab_args_ext ps : forall args args', Forall2 (fun a b : elaborator => forall ex, a ex = b ex) args args' ->
  elab_args ps args = elab_args ps args'.
Proof.
  induction ps as [|[t m] ps IH]; intros args args' H; [reflexivity|]. destruct H as [|a b args args' Hab H]; [reflexivity|].
  cbn. rewrite Hab, (IH _ _ H). reflexivity.
Qed.
Lemma elab_func_ext f args args' raw ex : Forall2 (fun a b : elaborator => forall ex, a ex = b ex) args args' ->
  elab_func f args raw ex = elab_func f args' raw ex.
Proof.
  intros H. unfold elab_func.
  assert (Hl : length args = length args') by (clear - H; induction H; cbn; congruence).
  rewrite Hl. destruct (params f (length args')) as [ps|]; [rewrite (elab_args_ext ps _ _ H)|]; reflexivity.
Qed.
Lemma viable_ext fs args args' raw ex : Forall2 (fun a b : elaborator => forall ex, a ex = b ex) args args' ->
  viable fs args raw ex = viable fs args' raw ex.
Proof. intros H. induction fs as [|f fs IH]; [reflexivity|]. cbn. rewrite (elab_func_ext f _ _ raw ex H), IH. reflexivity. Qed.

Lemma reordered_variants env env' name : reordered env env' ->
  match get_func_variants env name, get_func_variants env' name with
  | Some fs, Some fs' => Permutation fs fs'
  | None, None => True
  | _, _ => False
  end.
Proof.
  intros [_ H]. unfold get_func_variants. induction H as [|[n fs] [n' fs'] l l' [Hn Hp] H IH]; [exact I|].
  cbn in *. subst n'. destruct (str_eqb name n); [exact Hp|exact IH].
Qed.

Lemma distinct_variants env name fs : distinct_ids env -> get_func_variants env name = Some fs -> NoDup (map f_id fs).
Proof.
  unfold distinct_ids, get_func_variants. intros H. induction H as [|[n gs] l Hn H IH]; cbn; [discriminate|].
  destruct (str_eqb name n); [intros E; injection E as <-; exact Hn|exact IH].
Qed.

Lemma elab_reordered env env' G e : reordered env env' -> distinct_ids env ->
  forall ex, elab env G e ex = elab env' G e ex.
Proof.
  intros Hr Hd. induction e as [id v|id name args raw IH] using expr_ind'; intros ex; [reflexivity|]. cbn [elab].
  pose proof (reordered_variants env env' name Hr) as Hv.
  destruct (get_func_variants env name) as [fs|] eqn:Ef, (get_func_variants env' name) as [fs'|]; try contradiction; [|reflexivity].
  rewrite (best_permutation fs fs' _ _ ex Hv (distinct_variants _ _ _ Hd Ef)).
  rewrite (viable_ext fs' (map (elab env G) args) (map (elab env' G) args)); [reflexivity|].
  clear - IH. induction IH; cbn; constructor; auto.
Qed.

Lemma elab_items_reordered env env' items : reordered env env' -> distinct_ids env ->
  forall G, elab_items env G items = elab_items env' G items.
Proof.
  intros Hr Hd. induction items as [|[n e] items IH]; intros G; [reflexivity|]. cbn [elab_items].
  rewrite (elab_reordered env env' G e Hr Hd). destruct (elab env' G e None) as [[te c]|]; [|reflexivity].
  destruct (assoc_str n G); [reflexivity|]. rewrite IH. reflexivity.
Qed.

Lemma make_subst_reordered O env env' spec : reordered env env' -> distinct_ids env ->
  NoDup (item_ids (spec_items spec)) ->
  make_substitutions O env spec = make_substitutions O env' spec.
Proof.
  intros Hr Hd Hnd. rewrite !make_substitutions_spec by exact Hnd. unfold bindings.
  rewrite (elab_items_reordered env env' _ Hr Hd). destruct Hr as [-> _]. reflexivity.
Qed.

(** ** Types only (C10) *)
Lemma similar_plan env G G' e e' ex : similar G G' e e' ->
  match elab env G e ex, elab env G' e' ex with
  | inl (te, c), inl (te', c') => same_plan te te' /\ c = c'
  | inr er, inr er' => er = er'
  | _, _ => False
  end.
Proof.
  intros Hs.
  assert (Hx : xrel (fun _ _ => True) G G' e e').
  { revert e' Hs. induction e as [id v|id name args raw IH] using expr_ind'; intros e' Hs;
      inversion Hs as [? ? ? ? Hv|? ? ? ? ? ? ? Ha Hr]; subst; constructor; auto.
    - clear Hs. revert args' Ha. induction IH as [|a args Ha' _ IHa]; intros args' H; inversion H; subst; constructor; auto.
    - destruct raw as [[r ts]|], raw' as [[r' ts']|]; cbn; auto; destruct Hr as [H1 H2];
        [discriminate (H2 eq_refl)|discriminate (H1 eq_refl)]. }
  assert (Hf : forall name, match get_func_variants env name, get_func_variants env name with
     | Some fs, Some fs' => Forall2 eq fs fs' | None, None => True | _, _ => False end).
  { intros name. destruct (get_func_variants env name) as [fs|]; [|exact I]. induction fs; constructor; auto. }
  pose proof (elab_rel eq (fun _ _ => True) (fun f f' H => match H with eq_refl => conj eq_refl eq_refl end)
    (fun f f' g g' H H' => match H, H' with eq_refl, eq_refl => eq_refl end) env env G G' Hf e e' Hx ex) as Hr.
  unfold orel in Hr.
  destruct (elab env G e ex) as [[te c]|er], (elab env G' e' ex) as [[te' c']|er']; try contradiction; [|exact Hr].
  destruct Hr as [Ht ->]. split; [|reflexivity]. clear - Ht. revert te' Ht.
  induction te as [v t|f args t IH] using texpr_ind'; intros te' H; inversion H as [|? ? ? ? ? Hf Hargs]; subst; constructor.
  clear H. revert args' Hargs. induction IH as [|a args Ha _ IHa]; intros args' Hargs; inversion Hargs; subst; constructor; auto.
Qed.
