(** Facts about the built-in function table. *)
From Coq Require Import String.
From Verif Require Import Base BaseFacts Token Types TypesProofs Values Ast Env Resolve Eval SpecElab SpecScope SpecPrograms ElabProofs ElabFacts.

Section Builtin.
Context (O : oracles).

(** ** The shape of the table *)
Lemma number_rows_assoc rows : forall n name fs, assoc_str name (number_rows n rows) = Some fs ->
  exists k vs, In (name, vs) rows /\ fs = number_variants name k vs.
Proof.
  induction rows as [|[m vs] rows IH]; intros n name fs H; cbn in H; [discriminate|].
  destruct (str_eqb name m) eqn:E.
  - apply str_eqb_eq in E as ->. injection H as <-. exists n, vs. split; [left|]; reflexivity.
  - apply IH in H as (k & vs' & H1 & H2). exists k, vs'. split; [right; exact H1|exact H2].
Qed.

Lemma number_variants_in vs : forall name k f, In f (number_variants name k vs) ->
  In (f_arg_types f, f_out_type f, f_impl f) vs /\ f_name f = name.
Proof.
  induction vs as [|[[a o] im] vs IH]; intros name k f H; cbn in H; [contradiction|].
  destruct H as [<-|H]; [split; [left|]; reflexivity|]. apply IH in H as [H1 H2]. split; [right; exact H1|exact H2].
Qed.

Lemma number_variants_map vs : forall name k a o im, In (a, o, im) vs ->
  exists f, In f (number_variants name k vs) /\ f_arg_types f = a /\ f_out_type f = o /\ f_impl f = im.
Proof.
  induction vs as [|[[a' o'] im'] vs IH]; intros name k a o im H; [contradiction|]. cbn.
  destruct H as [H|H].
  - injection H as -> -> ->. eexists. split; [left; reflexivity|]. auto.
  - destruct (IH name (N.succ k) _ _ _ H) as (f & Hf & E). exists f. split; [right; exact Hf|exact E].
Qed.

(** ** Implementations meet their signatures *)
Definition benign (r : res value) (t : ty) : Prop :=
  match r with
  | Ok v => type_of v = t
  | Err e => e = TypeError \/ e = EvalError
  | Panic p => p = PIdentNew \/ p = PLitNew
  end.

Definition typed_args (args : list ty) (vs : list value) : Prop :=
  exists ps, params {| f_id := 0; f_name := []; f_arg_types := args; f_out_type := TyRaw; f_impl := fun _ _ => arg_type_err |} (List.length vs) = Some ps /\
             Forall2 (fun p v => type_of v = fst p) ps vs.

Lemma new_ident_benign x : benign (new_ident O x) TyIdent.
Proof. unfold new_ident. destruct (ident_ok O x); cbn; auto. Qed.

Lemma cast_benign v t : benign (try_cast O v t) t.
Proof.
  destruct (try_cast O v t) eqn:E; cbn.
  - eapply cast_type; eassumption.
  - left. eapply cast_errors; eassumption.
  - exfalso. eapply cast_never_panics; eassumption.
Qed.

Lemma typed_one t vs : is_variadic_ty t = false -> typed_args [t] vs -> exists v, vs = [v] /\ type_of v = t.
Proof.
  intros Hn (ps & Hp & Hf). unfold params, variadic_arg_type, non_variadic_arg_types, num_args in Hp. cbn in Hp. rewrite Hn in Hp. cbn in Hp.
  destruct vs as [|v [|w vs]]; cbn in Hp; try discriminate. injection Hp as <-.
  inversion Hf as [|? ? ? ? H]; subst. exists v. auto.
Qed.

Lemma typed_variadic t vs : is_variadic_ty t = false -> typed_args [TyVariadic t] vs -> Forall (fun v => type_of v = t) vs.
Proof.
  intros Hn (ps & Hp & Hf). unfold params, variadic_arg_type, non_variadic_arg_types, num_args in Hp. cbn in Hp.
  destruct vs as [|v vs]; [discriminate|]. injection Hp as <-.
  assert (Hlen : exists k, k = List.length vs) by eauto. destruct Hlen as [k Hk]. rewrite <- Hk in Hf.
  change (Forall2 (fun p v => type_of v = fst p) (repeat (t, 2%N) (S k)) (v :: vs)) in Hf.
  generalize dependent (S k). clear Hk k. generalize (v :: vs). intros l n Hf.
  assert (Hr : Forall (fun p => fst p = t) (repeat (t, 2%N) n)).
  { apply Forall_forall. intros p Hp. apply repeat_spec in Hp as ->. reflexivity. }
  revert Hr Hf. generalize (repeat (t, 2%N) n). intros ps Hr Hf. induction Hf as [|p w ps l H _ IH]; [constructor|].
  inversion Hr; subst. constructor; [congruence|auto].
Qed.

Lemma typed_ident_tokens vs : typed_args [TyIdent; TyVariadic TyTokens] vs ->
  exists x v vs', vs = VIdent x :: v :: vs' /\ Forall (fun v => type_of v = TyTokens) (v :: vs').
Proof.
  intros (ps & Hp & Hf). unfold params, variadic_arg_type, non_variadic_arg_types, num_args in Hp. cbn in Hp.
  destruct vs as [|u [|v vs]]; try discriminate. injection Hp as <-.
  cbn in Hf. inversion Hf as [|? ? ? ? Hu Hf']; subst. cbn in Hu. destruct u; try discriminate.
  exists x, v, vs. split; [reflexivity|].
  change (Forall2 (fun p v => type_of v = fst p) (repeat (TyTokens, 2%N) (S (List.length vs))) (v :: vs)) in Hf'.
  revert Hf'. generalize (S (List.length vs)). generalize (v :: vs). clear. intros l n Hf.
  assert (Hr : Forall (fun p => fst p = TyTokens) (repeat (TyTokens, 2%N) n)).
  { apply Forall_forall. intros p Hp. apply repeat_spec in Hp as ->. reflexivity. }
  revert Hr Hf. generalize (repeat (TyTokens, 2%N) n). intros ps Hr Hf. induction Hf as [|p w ps l H _ IH]; [constructor|].
  inversion Hr; subst. constructor; [congruence|auto].
Qed.

Lemma collect_total {A} (g : value -> option A) t vs :
  (forall v, type_of v = t -> g v <> None) -> Forall (fun v => type_of v = t) vs ->
  exists l, collect_args g vs = Some l.
Proof.
  intros Hg. induction 1 as [|v vs Hv _ [l IH]]; cbn; [eauto|]. specialize (Hg v Hv).
  destruct (g v); [|congruence]. rewrite IH. eauto.
Qed.

Definition row_ok (r : row) : Prop :=
  Forall (fun x => forall seed vs, typed_args (fst (fst x)) vs -> benign (snd x seed vs) (snd (fst x))) (snd r).

Lemma table_ok : Forall row_ok (table O).
Proof.
  assert (Hstr : forall name g, row_ok (str_funcs O name g)).
  { intros name g. constructor; [|constructor; [|constructor]]; intros seed vs H; cbn [fst snd] in *.
    - apply typed_one in H as (v & -> & Hv); [|reflexivity]. destruct v; try discriminate. reflexivity.
    - apply typed_one in H as (v & -> & Hv); [|reflexivity]. destruct v; try discriminate. apply new_ident_benign. }
  assert (Hto : forall name t, row_ok (name, [([TyTokens], t, impl_to O t)])).
  { intros name t. constructor; [|constructor]; intros seed vs H; cbn [fst snd] in *.
    apply typed_one in H as (v & -> & Hv); [|reflexivity]. destruct v; try discriminate. apply cast_benign. }
  unfold table.
  repeat (first [apply Forall_cons; [apply Hstr|]|apply Forall_cons; [apply Hto|]|apply Forall_cons|apply Forall_nil]);
    unfold row_ok; cbn [fst snd];
    repeat (first [apply Forall_nil|apply Forall_cons]); intros seed vs H; cbn [fst snd] in *;
    try (apply typed_one in H as (v & -> & Hv); [|reflexivity]; destruct v; try discriminate; cbn;
         first [apply new_ident_benign|reflexivity]; fail).
  - apply typed_variadic in H; [|reflexivity].
    destruct (collect_total (fun v => match v with VIdent x => Some x | _ => None end) TyIdent vs) as [l Hl];
      [intros [] Hv; discriminate|exact H|]. unfold impl_concat_idents. rewrite Hl. apply new_ident_benign.
  - apply typed_ident_tokens in H as (x & v & vs' & -> & H). unfold impl_concat_ident_tokens.
    destruct (collect_total (fun v => match v with VTokens ts => Some (to_string O ts) | _ => None end) TyTokens (v :: vs')) as [l Hl];
      [intros [] Hv; discriminate|exact H|]. rewrite Hl. destruct (parse_str_ident O _); cbn; auto.
  - apply typed_variadic in H; [|reflexivity].
    destruct (collect_total (fun v => match v with VLitStr x _ => Some x | _ => None end) TyLitStr vs) as [l Hl];
      [intros [] Hv; discriminate|exact H|]. unfold impl_concat_strs. rewrite Hl. reflexivity.
  - apply typed_variadic in H; [|reflexivity].
    destruct (collect_total (fun v => match v with VLitInt d _ => Some d | _ => None end) TyLitInt vs) as [l Hl];
      [intros [] Hv; discriminate|exact H|]. unfold impl_concat_ints. rewrite Hl.
    destruct (lit_int_new O _) as [[d r]|]; cbn; auto.
  - apply typed_variadic in H; [|reflexivity].
    destruct (collect_total (fun v => match v with VTokens ts => Some ts | _ => None end) TyTokens vs) as [l Hl];
      [intros [] Hv; discriminate|exact H|]. unfold impl_concat_tokens. rewrite Hl. reflexivity.
Qed.

(** Parameters of type `type` or `expr` occur in one-parameter overloads that compete
    with an overload for identifiers of the same result type. *)
Definition needs_parser (t : ty) : bool := match t with TyType | TyExpr => true | _ => false end.
Definition row_shape (r : row) : Prop :=
  forall a o im, In (a, o, im) (snd r) ->
    (forall t, In t a -> needs_parser t = false /\ (forall t', t = TyVariadic t' -> needs_parser t' = false)) \/
    (exists t, a = [t] /\ is_variadic_ty t = false /\ exists im', In ([TyIdent], o, im') (snd r)).

Lemma table_shape : Forall row_shape (table O).
Proof.
  repeat (first [apply Forall_nil|apply Forall_cons]);
    intros a o im H; cbn in H;
    repeat match type of H with _ \/ _ => destruct H as [H|H] end; try contradiction;
    injection H as <- <- <-;
    try (left; intros t Ht; cbn in Ht; repeat match type of Ht with _ \/ _ => destruct Ht as [Ht|Ht] end;
         try contradiction; subst t; (split; [reflexivity|intros t' E; first [discriminate|injection E as <-; reflexivity]]); fail);
    right; eexists; (split; [reflexivity|]); (split; [reflexivity|]); eexists; cbn; left; reflexivity.
Qed.

(** ** Soundness of evaluation *)
Definition ctx_ok (G : tenv) (ctx : venv) : Prop :=
  Forall2 (fun g b => fst g = fst b /\ type_of (snd b) = snd g) G ctx.

Lemma ctx_ok_value G ctx v : ctx_ok G ctx ->
  type_of (match v with VIdent x => match assoc_str x ctx with Some w => w | None => v end | _ => v end) = static_type G v.
Proof.
  intros H. destruct v as [x| | | | | | |]; try reflexivity. cbn [static_type].
  induction H as [|[y t] [y' w] G ctx [H1 H2] H IH]; [reflexivity|]. cbn in *. subst y'.
  destruct (str_eqb x y); [exact H2|exact IH].
Qed.

Lemma cast_total v t c : coercion_cost (type_of v) t = Some c ->
  (type_of v = TyIdent -> needs_parser t = false) -> exists w, try_cast O v t = Ok w.
Proof.
  intros Hc Hn. unfold try_cast. destruct (ty_eqb (type_of v) t) eqn:E; [eauto|].
  unfold coercion_cost, coercion_cost_basic in Hc.
  destruct v, t; cbn in *; try discriminate; try (specialize (Hn eq_refl); discriminate); eauto.
Qed.

Context (seed first : N).
Let env := new_initialized O seed first.

Lemma builtin_variants name fs : get_func_variants env name = Some fs ->
  exists k vs, In (name, vs) (table O) /\ fs = number_variants name k vs.
Proof. apply number_rows_assoc. Qed.

Lemma builtin_typed name fs f vs : get_func_variants env name = Some fs -> In f fs ->
  typed_args (f_arg_types f) vs -> benign (f_impl f seed vs) (f_out_type f).
Proof.
  intros Hg Hf Ht. apply builtin_variants in Hg as (k & rs & Hin & ->).
  apply number_variants_in in Hf as [Hf _].
  pose proof table_ok as H. rewrite Forall_forall in H. specialize (H _ Hin). unfold row_ok in H.
  rewrite Forall_forall in H. exact (H _ Hf seed vs Ht).
Qed.

Lemma params_types f f' n : f_arg_types f = f_arg_types f' -> params f n = params f' n.
Proof. intros E. unfold params, variadic_arg_type, non_variadic_arg_types, num_args. rewrite E. reflexivity. Qed.

(** The types the parameters of an overload ask for. *)
Lemma params_in f n ps p : params f n = Some ps -> In p ps ->
  (In (fst p) (f_arg_types f) /\ is_variadic_ty (fst p) = false) \/ In (TyVariadic (fst p)) (f_arg_types f).
Proof.
  unfold params. intros H Hp.
  assert (Hfix : forall p, In p (map (fun t => (t, 1%N)) (non_variadic_arg_types f)) -> In (fst p) (f_arg_types f) /\ is_variadic_ty (fst p) = false).
  { intros q Hq. apply in_map_iff in Hq as (t & <- & Ht). apply filter_In in Ht as [H1 H2]. split; [exact H1|].
    apply negb_true_iff. exact H2. }
  destruct (variadic_arg_type f) as [t|] eqn:Ev.
  - destruct (Nat.leb _ _); [|discriminate]. injection H as <-. apply in_app_or in Hp as [Hp|Hp]; [left; auto|].
    apply repeat_spec in Hp as ->. right. cbn. unfold variadic_arg_type in Ev.
    destruct (find is_variadic_ty (f_arg_types f)) as [[| | | | | | | |u]|] eqn:Ef; try discriminate.
    injection Ev as ->. apply find_some in Ef as [Ef _]. exact Ef.
  - destruct (Nat.eqb _ _); [|discriminate]. injection H as <-. left. auto.
Qed.

Definition leaf_ident (G : tenv) (e : expr) : bool :=
  match e with EValue _ v => ty_eqb (static_type G v) TyIdent | _ => false end.

(** In a chosen overload no identifier leaf is coerced to a type or an expression. *)
Lemma chosen_safe G name args raw ex fs c f tes ps i a p :
  get_func_variants env name = Some fs ->
  best (viable fs (map (elab env G) args) raw ex) = Some (c, f, tes) ->
  ~ (f_arg_types f = [TyRaw] /\ raw <> None) ->
  params f (List.length args) = Some ps ->
  nth_error args i = Some a -> nth_error ps i = Some p -> leaf_ident G a = true ->
  needs_parser (fst p) = false.
Proof.
  intros Hg Hb Hnr Hps Ha Hp Hl. destruct (needs_parser (fst p)) eqn:En; [|reflexivity]. exfalso.
  pose proof (builtin_variants _ _ Hg) as (k & rs & Hin & ->).
  pose proof (best_in _ _ Hb) as Hv. apply viable_in in Hv as [Hf He].
  pose proof (number_variants_in _ _ _ _ Hf) as [Hrow _].
  pose proof table_shape as Hsh. rewrite Forall_forall in Hsh. specialize (Hsh _ Hin _ _ _ Hrow).
  pose proof (params_in _ _ _ p Hps (nth_error_In _ _ Hp)) as Hpin.
  destruct Hsh as [Hsh|(t & Ht & Hnv & im' & Him)].
  - destruct Hpin as [[Hpin _]|Hpin].
    + destruct (Hsh _ Hpin) as [H _]. congruence.
    + destruct (Hsh _ Hpin) as [_ H]. rewrite (H _ eq_refl) in En. discriminate.
  - (* one parameter: the overload for identifiers is cheaper *)
    destruct (number_variants_map rs name k _ _ _ Him) as (g & Hgin & Eg1 & Eg2 & _).
    assert (Hpt : params f (List.length args) = (if Nat.eqb 1 (List.length args) then Some [(t, 1%N)] else None)).
    { unfold params, variadic_arg_type, non_variadic_arg_types, num_args. rewrite Ht. cbn. rewrite Hnv. reflexivity. }
    rewrite Hps in Hpt. destruct args as [|a0 [|a1 args]]; try discriminate. cbn in Hpt. injection Hpt as ->.
    destruct i as [|i]; [|destruct i; discriminate]. cbn in Ha, Hp. injection Ha as <-. injection Hp as <-.
    cbn in En.
    apply elab_func_inv in He as (c0 & Hc0 & [(ts & Hr1 & Hr2 & _)|(_ & ps' & c' & Hps' & Hargs & ->)]).
    { apply Hnr. split; [exact Hr1|congruence]. }
    cbn [map List.length] in Hps, Hps', Hargs. rewrite Hps in Hps'. injection Hps' as <-. cbn in Hargs.
    destruct a0 as [id v|]; [|discriminate]. cbn in Hl. apply ty_eqb_eq in Hl.
    cbn [elab] in Hargs. rewrite Hl in Hargs.
    destruct (coercion_cost TyIdent t) as [ct|] eqn:Ect; [|discriminate]. cbn in Hargs. injection Hargs as <- <-.
    assert (Hct : (0 < ct)%N).
    { destruct t; cbn in En, Ect; try discriminate; injection Ect as <-; lia. }
    assert (Hge : elab_func g [elab env G (EValue id v)] raw ex = Some (c0 + (0 * 1 + 0), [TEVal v TyIdent])%N).
    { unfold elab_func. rewrite Eg2, Hc0, Eg1.
      replace (params g (List.length [elab env G (EValue id v)])) with (Some [(TyIdent, 1%N)])
        by (unfold params, variadic_arg_type, non_variadic_arg_types, num_args; rewrite Eg1; reflexivity).
      cbn [elab_args elab]. rewrite Hl. cbn. reflexivity. }
    pose proof (best_min _ _ Hb _ (proj2 (viable_in _ _ _ _ _ _ _) (conj Hgin Hge))) as Hm.
    change (betterb (c0 + (0 * 1 + 0), g)%N (c0 + (ct * 1 + 0), f)%N = false) in Hm.
    assert (Hbt : better (c0 + (0 * 1 + 0), g)%N (c0 + (ct * 1 + 0), f)%N) by (left; lia).
    apply betterb_better in Hbt. congruence.
Qed.

Definition runs (ctx : venv) (te : texpr) : Prop := benign (run O seed ctx te) (target_of te).

Lemma mapM_runs ctx ps : forall tes,
  Forall2 (fun (p : ty * N) te => runs ctx te /\ target_of te = fst p) ps tes ->
  match mapM (run O seed ctx) tes with
  | Ok vs => Forall2 (fun p v => type_of v = fst p) ps vs
  | Err e => e = TypeError \/ e = EvalError
  | Panic p => p = PIdentNew \/ p = PLitNew
  end.
Proof.
  induction ps as [|p ps IH]; intros tes H; inversion H as [|? te ? tes' [Hr Ht] H']; subst; [constructor|].
  cbn. unfold runs in Hr. destruct (run O seed ctx te) as [v| |]; cbn in Hr |- *; auto.
  specialize (IH _ H'). destruct (mapM (run O seed ctx) tes') as [vs| |]; cbn; auto.
  constructor; [congruence|exact IH].
Qed.

Lemma elab_target G e ex te c t : elab env G e ex = inl (te, c) -> ex = Some t -> target_of te = t.
Proof.
  intros H ->. destruct e as [id v|id name args raw]; cbn [elab] in H.
  - destruct (coercion_cost _ _); [|discriminate]. injection H as <- _. reflexivity.
  - destruct (get_func_variants env name); [|discriminate].
    destruct (best _) as [[[c' f] tes]|]; [|discriminate]. injection H as <- _. reflexivity.
Qed.

Lemma elab_sound G ctx e : ctx_ok G ctx -> forall ex te c,
  elab env G e ex = inl (te, c) ->
  (leaf_ident G e = true -> needs_parser (target_of te) = false) ->
  runs ctx te.
Proof.
  intros Hctx. induction e as [id v|id name args raw IH] using expr_ind'; intros ex te c H Hsafe; cbn [elab] in H.
  - destruct (coercion_cost _ _) as [d|] eqn:Ec; [|discriminate]. injection H as <- <-.
    unfold runs. cbn [run target_of] in *.
    set (t := match ex with Some t => t | None => static_type G v end) in *. clearbody t.
    rewrite <- (ctx_ok_value G ctx v Hctx) in Ec.
    set (v' := match v with VIdent x => _ | _ => _ end) in *.
    destruct (cast_total v' t d Ec) as [w Hw].
    { intros Hi. apply Hsafe. cbn. unfold v' in Hi. rewrite (ctx_ok_value G ctx v Hctx) in Hi. rewrite Hi. reflexivity. }
    rewrite Hw. cbn. eapply cast_type; eassumption.
  - destruct (get_func_variants env name) as [fs|] eqn:Eg; [|discriminate].
    destruct (best _) as [[[d f] tes]|] eqn:Eb; [|discriminate]. injection H as <- <-.
    set (t := match ex with Some t => t | None => f_out_type f end) in *.
    pose proof (best_in _ _ Eb) as Hv. apply viable_in in Hv as [Hf He].
    assert (Hargs : match mapM (run O seed ctx) tes with
                    | Ok vs => typed_args (f_arg_types f) vs
                    | Err e => e = TypeError \/ e = EvalError
                    | Panic p => p = PIdentNew \/ p = PLitNew
                    end).
    { apply elab_func_inv in He as (c0 & Hc0 & [(ts & Hr1 & Hr2 & _ & ->)|(Hnr & ps & c' & Hps & Hargs & _)]).
      - cbn. unfold typed_args. rewrite Hr1. exists [(TyRaw, 1%N)]. split; [reflexivity|]. constructor; [reflexivity|constructor].
      - rewrite map_length in Hps.
        assert (Hall : Forall2 (fun (p : ty * N) te => runs ctx te /\ target_of te = fst p) ps tes).
        { pose proof (elab_args_inv _ _ _ _ Hargs) as Hinv.
          rewrite map_length, (params_length _ _ _ Hps) in Hinv. specialize (Hinv eq_refl).
          assert (Hsf : forall i a p, nth_error args i = Some a -> nth_error ps i = Some p -> leaf_ident G a = true -> needs_parser (fst p) = false).
          { intros i a p. exact (chosen_safe G name args _ ex fs d f tes ps i a p Eg Eb Hnr Hps). }
          pose proof (params_length _ _ _ Hps) as Hlen. clear - IH Hinv Hsf Hlen Hctx.
          revert ps tes Hinv Hsf Hlen. induction IH as [|a args Ha _ IHargs]; intros ps tes Hinv Hsf Hlen;
            destruct ps as [|p ps]; cbn in Hlen; try discriminate; cbn [map combine] in Hinv; inversion Hinv as [|? te' ? tes' [d' Hd] Hinv']; subst.
          - constructor.
          - cbn [fst snd] in Hd. constructor.
            + pose proof (elab_target _ _ _ _ _ _ Hd eq_refl) as Htg. split; [|exact Htg].
              eapply Ha; [exact Hd|]. intros Hleaf. rewrite Htg. exact (Hsf 0 a p eq_refl eq_refl Hleaf).
            + apply IHargs; [exact Hinv'| |congruence]. intros i a' p' H1 H2. exact (Hsf (S i) a' p' H1 H2). }
        pose proof (mapM_runs ctx ps tes Hall) as Hm. destruct (mapM (run O seed ctx) tes) as [vs| |]; auto.
        exists ps. split; [|exact Hm]. rewrite <- Hps.
        assert (Hlv : List.length vs = List.length args).
        { rewrite <- (params_length _ _ _ Hps). clear - Hm. induction Hm; cbn; congruence. }
        rewrite Hlv. apply params_types. reflexivity. }
    unfold runs. cbn [run target_of]. destruct (mapM (run O seed ctx) tes) as [vs| |]; cbn [bind]; [|exact Hargs|exact Hargs].
    pose proof (builtin_typed _ _ _ _ Eg Hf Hargs) as Hb.
    destruct (f_impl f seed vs) as [r| |]; cbn [bind]; [|exact Hb|exact Hb]. apply cast_benign.
Qed.

Lemma elab_top_type G id v te c : elab env G (EValue id v) None = inl (te, c) -> target_of te = static_type G v.
Proof. cbn [elab]. rewrite cost_same. intros H; injection H as <- _. reflexivity. Qed.

Lemma items_sound items : forall G ctx tis,
  ctx_ok G ctx -> elab_items env G items = Ok tis ->
  match run_items O seed ctx tis with
  | Ok bs => Forall2 (fun ti b => fst ti = fst b /\ type_of (snd b) = target_of (snd ti)) tis bs
  | Err e => e = TypeError \/ e = EvalError
  | Panic p => p = PIdentNew \/ p = PLitNew
  end.
Proof.
  induction items as [|[name e] items IH]; intros G ctx tis Hctx H; cbn [elab_items] in H; [injection H as <-; constructor|].
  destruct (elab env G e None) as [[te c]|] eqn:Ee; [|discriminate].
  destruct (assoc_str name G); [discriminate|]. apply bind_Ok in H as (tis' & H1 & H2). injection H2 as <-.
  cbn [run_items].
  assert (Hr : runs ctx te).
  { eapply elab_sound; [exact Hctx|exact Ee|]. intros Hl. destruct e as [id v|]; [|discriminate].
    rewrite (elab_top_type _ _ _ _ _ Ee). cbn in Hl. apply ty_eqb_eq in Hl. rewrite Hl. reflexivity. }
  unfold runs in Hr. destruct (run O seed ctx te) as [v| |]; cbn [bind]; [|exact Hr|exact Hr].
  assert (Hctx' : ctx_ok ((name, target_of te) :: G) ((name, v) :: ctx)) by (constructor; [split; [reflexivity|exact Hr]|exact Hctx]).
  specialize (IH _ _ _ Hctx' H1). unfold alias in *. destruct (run_items O seed ((name, v) :: ctx) tis') as [bs| |]; cbn [bind]; [|exact IH|exact IH].
  constructor; [split; [reflexivity|exact Hr]|exact IH].
Qed.
End Builtin.
