(** Calls of built-in functions on plain values: concat, hash, raw, to_path. *)
From Coq Require Import String.
From Verif Require Import Base BaseFacts Token Types TypesProofs Values Ast Env Resolve Eval SpecElab SpecScope SpecPrograms SpecCalls ElabProofs ElabFacts BuiltinFacts.

(** ** One more definition after a list of evaluated ones *)
Section Snoc.
Context (O : oracles) (seed first : N).
Let env := new_initialized O seed first.

Lemma ctx_ok_rev G G' ctx ctx' : ctx_ok G ctx -> ctx_ok G' ctx' -> ctx_ok (G ++ G') (ctx ++ ctx').
Proof. unfold ctx_ok. intros H H'. apply Forall2_app; assumption. Qed.

Lemma Forall2_rev {A B} (P : A -> B -> Prop) l l' : Forall2 P l l' -> Forall2 P (rev l) (rev l').
Proof. induction 1; cbn; [constructor|]. apply Forall2_app; [assumption|]. constructor; [assumption|constructor]. Qed.

Lemma bindings_snoc pre a e bs :
  bindings O env pre = Ok bs -> ~ In a (map fst pre) ->
  exists G, ctx_ok G (rev bs) /\
  bindings O env (pre ++ [(a, e)]) =
  match elab env G e None with
  | inr er => Err er
  | inl (te, _) => let! v := run O seed (rev bs) te in Ok (bs ++ [(a, v)])
  end.
Proof.
  unfold bindings. intros H Ha. apply bind_Ok in H as (tis & H1 & H2).
  exists (tenv_of tis). split.
  - pose proof (items_sound O seed first pre [] [] tis (Forall2_nil _) H1) as Hs.
    change (e_seed env) with seed in H2. rewrite H2 in Hs. unfold tenv_of, ctx_ok. apply Forall2_rev.
    clear - Hs. induction Hs as [|[n te] [m v] tis bs [E1 E2] _ IH]; cbn; constructor; auto.
  - rewrite elab_items_app, H1. cbn [bind elab_items]. rewrite app_nil_r.
    destruct (elab env (tenv_of tis) e None) as [[te c]|er]; [|reflexivity].
    assert (Hn : assoc_str a (tenv_of tis) = None).
    { apply assoc_str_None. rewrite tenv_of_names, (elab_items_names _ _ _ _ H1), <- in_rev. exact Ha. }
    rewrite Hn. cbn [bind]. rewrite run_items_app, H2. cbn [bind]. rewrite app_nil_r. cbn [run_items].
    change (e_seed env) with seed. destruct (run O seed (rev bs) te) as [v| |]; reflexivity.
Qed.
End Snoc.

(** ** Plain arguments *)
Section Plain.
Context (O : oracles) (seed first : N).
Let env := new_initialized O seed first.

Definition leaf_types (G : tenv) (leaves : list (N * value)) : list ty := map (fun l => static_type G (snd l)) leaves.

Lemma coerce_rigid t s c : (t = TyIdent \/ t = TyLitStr \/ t = TyLitInt) -> coercion_cost s t = Some c -> s = t /\ c = 0%N.
Proof.
  intros Ht H. unfold coercion_cost, coercion_cost_basic in H.
  destruct Ht as [-> | [-> | ->]]; destruct s; cbn in H; try discriminate; injection H as <-; auto.
Qed.

Definition tok_cost (s : ty) : N := if ty_eqb s TyTokens then 0 else 4.
Lemma coerce_tokens s : coercion_cost s TyTokens = Some (tok_cost s).
Proof. destruct s; reflexivity. Qed.

Lemma elab_args_rigid t G leaves : (t = TyIdent \/ t = TyLitStr \/ t = TyLitInt) ->
  elab_args (repeat (t, 2%N) (List.length leaves)) (map (elab env G) (plain leaves)) =
  if forallb (ty_eqb t) (leaf_types G leaves) then Some (0%N, map (fun l => TEVal (snd l) t) leaves) else None.
Proof.
  intros Ht. induction leaves as [|[id v] leaves IH]; [reflexivity|].
  cbn [List.length repeat plain map elab_args fst snd leaf_types forallb]. cbn [elab].
  unfold plain in IH. rewrite IH. unfold leaf_types.
  destruct (coercion_cost (static_type G v) t) as [c|] eqn:E.
  - destruct (coerce_rigid _ _ _ Ht E) as [-> ->]. rewrite ty_eqb_refl. cbn [andb].
    destruct (forallb _ _); reflexivity.
  - destruct (ty_eqb t (static_type G v)) eqn:Et; [|reflexivity].
    apply ty_eqb_eq in Et. rewrite <- Et, cost_same in E. discriminate.
Qed.

Definition sum2 (l : list ty) : N := fold_right (fun s n => (tok_cost s * 2 + n)%N) 0%N l.

Lemma elab_args_tokens G leaves :
  elab_args (repeat (TyTokens, 2%N) (List.length leaves)) (map (elab env G) (plain leaves)) =
  Some (sum2 (leaf_types G leaves), map (fun l => TEVal (snd l) TyTokens) leaves).
Proof.
  induction leaves as [|[id v] leaves IH]; [reflexivity|].
  cbn [List.length repeat plain map elab_args fst snd leaf_types sum2 fold_right]. cbn [elab].
  unfold plain in IH. rewrite IH, coerce_tokens. reflexivity.
Qed.

(** The overload concat selects for plain arguments. *)
Definition concat_rows : list (list ty * ty * (N -> list value -> res value)) :=
  [ ([TyVariadic TyIdent], TyIdent, impl_concat_idents O);
    ([TyIdent; TyVariadic TyTokens], TyIdent, impl_concat_ident_tokens O);
    ([TyVariadic TyLitStr], TyLitStr, impl_concat_strs);
    ([TyVariadic TyLitInt], TyLitInt, impl_concat_ints O);
    ([TyVariadic TyTokens], TyTokens, impl_concat_tokens) ].

Lemma concat_variants : exists k, get_func_variants env (txt "concat") = Some (number_variants (txt "concat") k concat_rows).
Proof. eexists. reflexivity. Qed.

Definition mkf name k (r : list ty * ty * (N -> list value -> res value)) : func :=
  {| f_id := k; f_name := name; f_arg_types := fst (fst r); f_out_type := snd (fst r); f_impl := snd r |}.

Lemma elab_func_rigid name k t out im G leaves raw ex c0 :
  (t = TyIdent \/ t = TyLitStr \/ t = TyLitInt) ->
  match ex with Some u => coercion_cost out u | None => Some 0%N end = Some c0 ->
  elab_func (mkf name k ([TyVariadic t], out, im)) (map (elab env G) (plain leaves)) raw ex =
  match leaves with
  | [] => None
  | _ => if forallb (ty_eqb t) (leaf_types G leaves) then Some (c0, map (fun l => TEVal (snd l) t) leaves) else None
  end.
Proof.
  intros Ht Hc. unfold elab_func. cbn [mkf f_out_type fst snd f_arg_types]. rewrite Hc.
  assert (Hp : params (mkf name k ([TyVariadic t], out, im)) (List.length (map (elab env G) (plain leaves))) =
    match leaves with [] => None | _ => Some (repeat (t, 2%N) (List.length leaves)) end).
  { unfold params, variadic_arg_type, non_variadic_arg_types, num_args, plain. cbn. rewrite !map_length.
    destruct leaves; [reflexivity|]. cbn. reflexivity. }
  rewrite Hp. destruct leaves as [|l leaves]; [destruct t; reflexivity|].
  rewrite (elab_args_rigid t G (l :: leaves) Ht).
  destruct (forallb _ _); [rewrite N.add_0_r|]; destruct t; reflexivity.
Qed.

Lemma elab_func_tokens name k out im G leaves raw ex c0 :
  match ex with Some u => coercion_cost out u | None => Some 0%N end = Some c0 ->
  elab_func (mkf name k ([TyVariadic TyTokens], out, im)) (map (elab env G) (plain leaves)) raw ex =
  match leaves with
  | [] => None
  | _ => Some ((c0 + sum2 (leaf_types G leaves))%N, map (fun l => TEVal (snd l) TyTokens) leaves)
  end.
Proof.
  intros Hc. unfold elab_func. cbn [mkf f_out_type fst snd f_arg_types]. rewrite Hc.
  assert (Hp : params (mkf name k ([TyVariadic TyTokens], out, im)) (List.length (map (elab env G) (plain leaves))) =
    match leaves with [] => None | _ => Some (repeat (TyTokens, 2%N) (List.length leaves)) end).
  { unfold params, variadic_arg_type, non_variadic_arg_types, num_args, plain. cbn. rewrite !map_length.
    destruct leaves; [reflexivity|]. cbn. reflexivity. }
  rewrite Hp. destruct leaves as [|l leaves]; [reflexivity|].
  rewrite (elab_args_tokens G (l :: leaves)). reflexivity.
Qed.

Lemma elab_func_ident_tokens name k out im G leaves raw ex c0 :
  match ex with Some u => coercion_cost out u | None => Some 0%N end = Some c0 ->
  elab_func (mkf name k ([TyIdent; TyVariadic TyTokens], out, im)) (map (elab env G) (plain leaves)) raw ex =
  match leaves with
  | l :: l' :: rest =>
      if ty_eqb TyIdent (static_type G (snd l)) then
        Some ((c0 + sum2 (leaf_types G (l' :: rest)))%N,
              TEVal (snd l) TyIdent :: map (fun l => TEVal (snd l) TyTokens) (l' :: rest))
      else None
  | _ => None
  end.
Proof.
  intros Hc. unfold elab_func. cbn [mkf f_out_type fst snd f_arg_types]. rewrite Hc.
  assert (Hp : params (mkf name k ([TyIdent; TyVariadic TyTokens], out, im)) (List.length (map (elab env G) (plain leaves))) =
    match leaves with _ :: l' :: rest => Some ((TyIdent, 1%N) :: repeat (TyTokens, 2%N) (List.length (l' :: rest))) | _ => None end).
  { unfold params, variadic_arg_type, non_variadic_arg_types, num_args, plain. cbn. rewrite !map_length.
    destruct leaves as [|? [|? ?]]; reflexivity. }
  rewrite Hp. destruct leaves as [|l [|l' rest]]; try reflexivity.
  remember (l' :: rest) as tl. cbn [plain map elab_args fst snd]. cbn [elab].
  destruct (ty_eqb TyIdent (static_type G (snd l))) eqn:E.
  - apply ty_eqb_eq in E. rewrite <- E, cost_same. pose proof (elab_args_tokens G tl) as Ht. unfold plain in Ht. rewrite Ht.
    cbn [N.mul]. reflexivity.
  - destruct (coercion_cost (static_type G (snd l)) TyIdent) as [c|] eqn:Ec; [|reflexivity].
    destruct (coerce_rigid TyIdent _ _ (or_introl eq_refl) Ec) as [E' _]. rewrite E' in E. discriminate.
Qed.

(** Running plain arguments. *)
Lemma lookup_value_rev G bs v : ctx_ok G (rev bs) -> NoDup (map fst bs) ->
  match v with VIdent x => match assoc_str x (rev bs) with Some w => w | None => v end | _ => v end = lookup_value bs v.
Proof.
  intros _ Hnd. destruct v as [x| | | | | | |]; try reflexivity. cbn.
  replace (assoc_str x (rev bs)) with (assoc_str x bs); [reflexivity|].
  induction bs as [|[y w] bs IH]; [reflexivity|]. cbn in Hnd. inversion Hnd as [|? ? Hy Hb]; subst. cbn [rev assoc_str].
  destruct (str_eqb x y) eqn:E.
  - apply str_eqb_eq in E as ->. rewrite assoc_str_skip; [cbn; rewrite str_eqb_refl; reflexivity|].
    rewrite map_rev, <- in_rev. exact Hy.
  - rewrite IH by exact Hb. clear IH. induction (rev bs) as [|[z u] r IHr]; cbn; [rewrite E; reflexivity|].
    destruct (str_eqb x z); [reflexivity|exact IHr].
Qed.

Lemma run_leaf_same G bs v : ctx_ok G (rev bs) -> NoDup (map fst bs) ->
  run O seed (rev bs) (TEVal v (static_type G v)) = Ok (lookup_value bs v) /\ type_of (lookup_value bs v) = static_type G v.
Proof.
  intros Hc Hnd. pose proof (ctx_ok_value G (rev bs) v Hc) as Ht. pose proof (lookup_value_rev G bs v Hc Hnd) as Hl.
  cbn [run]. rewrite Hl in *. rewrite <- Ht, cast_same. auto.
Qed.

Lemma run_leaf_tokens G bs v : ctx_ok G (rev bs) -> NoDup (map fst bs) ->
  run O seed (rev bs) (TEVal v TyTokens) = Ok (VTokens (to_tokens (lookup_value bs v))).
Proof.
  intros Hc Hnd. pose proof (lookup_value_rev G bs v Hc Hnd) as Hl. cbn [run]. rewrite Hl.
  destruct (lookup_value bs v); reflexivity.
Qed.

Lemma run_leaves_same G bs t (leaves : list (N * value)) : ctx_ok G (rev bs) -> NoDup (map fst bs) ->
  forallb (ty_eqb t) (leaf_types G leaves) = true ->
  mapM (run O seed (rev bs)) (map (fun l => TEVal (snd l) t) leaves) = Ok (map (fun l => lookup_value bs (snd l)) leaves).
Proof.
  intros Hc Hnd. induction leaves as [|[id v] leaves IH]; intros H; [reflexivity|].
  cbn [map fst snd leaf_types forallb] in *. apply andb_prop in H as [H1 H2]. apply ty_eqb_eq in H1. subst t.
  cbn [mapM]. destruct (run_leaf_same G bs v Hc Hnd) as [-> _]. cbn [bind]. rewrite (IH H2). reflexivity.
Qed.

Lemma run_leaves_tokens G bs (leaves : list (N * value)) : ctx_ok G (rev bs) -> NoDup (map fst bs) ->
  mapM (run O seed (rev bs)) (map (fun l => TEVal (snd l) TyTokens) leaves) =
  Ok (map (fun l => VTokens (to_tokens (lookup_value bs (snd l)))) leaves).
Proof.
  intros Hc Hnd. induction leaves as [|[id v] leaves IH]; [reflexivity|].
  cbn [map fst snd mapM]. rewrite (run_leaf_tokens G bs v Hc Hnd). cbn [bind]. rewrite IH. reflexivity.
Qed.

Lemma run_leaves_ident_tokens G bs (l : N * value) (leaves : list (N * value)) : ctx_ok G (rev bs) -> NoDup (map fst bs) ->
  TyIdent = static_type G (snd l) ->
  mapM (run O seed (rev bs)) (TEVal (snd l) TyIdent :: map (fun l => TEVal (snd l) TyTokens) leaves) =
  Ok (lookup_value bs (snd l) :: map (fun l => VTokens (to_tokens (lookup_value bs (snd l)))) leaves).
Proof.
  intros Hc Hnd E. cbn [mapM]. rewrite E. destruct (run_leaf_same G bs (snd l) Hc Hnd) as [-> _]. cbn [bind].
  rewrite (run_leaves_tokens G bs leaves Hc Hnd). reflexivity.
Qed.

Definition values (bs : list (str * value)) (leaves : list (N * value)) : list value := map (fun l => lookup_value bs (snd l)) leaves.

Lemma values_types G bs leaves : ctx_ok G (rev bs) -> NoDup (map fst bs) ->
  map type_of (values bs leaves) = leaf_types G leaves.
Proof.
  intros Hc Hnd. unfold values, leaf_types. rewrite map_map. apply map_ext. intros [id v]. cbn.
  apply (run_leaf_same G bs v Hc Hnd).
Qed.

Lemma collect_all {A} (g : value -> option A) vs :
  fold_right (fun v r => match g v, r with Some x, Some l => Some (x :: l) | _, _ => None end) (Some []) vs = collect_args g vs.
Proof. induction vs as [|v vs IH]; [reflexivity|]. cbn. rewrite IH. reflexivity. Qed.

Lemma idents_collect vs : idents_of vs = collect_args (fun v => match v with VIdent x => Some x | _ => None end) vs.
Proof. rewrite <- collect_all. unfold idents_of. induction vs as [|v vs IH]; [reflexivity|]. cbn. rewrite IH. destruct v; reflexivity. Qed.
Lemma strings_collect vs : strings_of vs = collect_args (fun v => match v with VLitStr x _ => Some x | _ => None end) vs.
Proof. rewrite <- collect_all. unfold strings_of. induction vs as [|v vs IH]; [reflexivity|]. cbn. rewrite IH. destruct v; reflexivity. Qed.
Lemma ints_collect vs : ints_of vs = collect_args (fun v => match v with VLitInt x _ => Some x | _ => None end) vs.
Proof. rewrite <- collect_all. unfold ints_of. induction vs as [|v vs IH]; [reflexivity|]. cbn. rewrite IH. destruct v; reflexivity. Qed.

Lemma collect_typed {A} (g : value -> option A) t vs :
  (forall v, g v <> None <-> type_of v = t) ->
  forallb (ty_eqb t) (map type_of vs) = match collect_args g vs with Some _ => true | None => false end.
Proof.
  intros Hg. induction vs as [|v vs IH]; [reflexivity|]. cbn. rewrite IH.
  destruct (g v) as [a|] eqn:E.
  - assert (Ht : type_of v = t) by (apply Hg; congruence). rewrite Ht, ty_eqb_refl. cbn. destruct (collect_args g vs); reflexivity.
  - destruct (ty_eqb t (type_of v)) eqn:Et; [|reflexivity]. apply ty_eqb_eq in Et. symmetry in Et. apply Hg in Et. congruence.
Qed.

Lemma collect_tokens vs :
  collect_args (fun v => match v with VTokens ts => Some ts | _ => None end) (map (fun v => VTokens (to_tokens v)) vs) = Some (map to_tokens vs).
Proof. induction vs as [|v vs IH]; [reflexivity|]. cbn. rewrite IH. reflexivity. Qed.
Lemma collect_token_texts vs :
  collect_args (fun v => match v with VTokens ts => Some (to_string O ts) | _ => None end) (map (fun v => VTokens (to_tokens v)) vs) = Some (map (text_of O) vs).
Proof. induction vs as [|v vs IH]; [reflexivity|]. cbn. rewrite IH. reflexivity. Qed.

Lemma best_single a : best [a] = Some a. Proof. reflexivity. Qed.

Lemma better_cost (c c' : N) f f' : (c < c')%N -> betterb (c, f) (c', f') = true.
Proof. intros H. apply betterb_better. left. exact H. Qed.
Lemma worse_cost (c c' : N) f f' : (c < c')%N -> betterb (c', f') (c, f) = false.
Proof.
  intros H. unfold betterb. assert (Hl : (c' <? c)%N = false) by (apply N.ltb_ge; lia).
  assert (He : (c' =? c)%N = false) by (apply N.eqb_neq; lia). rewrite Hl, He. reflexivity.
Qed.

Lemma idents_not_strings t l : l <> [] -> t <> TyIdent -> forallb (ty_eqb TyIdent) l = true -> forallb (ty_eqb t) l = false.
Proof.
  destruct l as [|s l]; [congruence|]. intros _ Ht H. cbn [forallb] in *. apply andb_prop in H as [H _]. apply ty_eqb_eq in H as <-.
  rewrite (ty_eqb_neq t TyIdent Ht). reflexivity.
Qed.
Lemma rigid_excl t t' l : l <> [] -> t <> t' -> forallb (ty_eqb t) l = true -> forallb (ty_eqb t') l = false.
Proof.
  destruct l as [|s l]; [congruence|]. intros _ Ht H. cbn [forallb] in *. apply andb_prop in H as [H _]. apply ty_eqb_eq in H as <-.
  rewrite (ty_eqb_neq t' t) by congruence. reflexivity.
Qed.
Lemma sum2_rigid_pos t l : l <> [] -> t <> TyTokens -> forallb (ty_eqb t) l = true -> (0 < sum2 l)%N.
Proof.
  destruct l as [|s l]; [congruence|]. intros _ Ht H. cbn [forallb] in *. apply andb_prop in H as [H _]. apply ty_eqb_eq in H as <-.
  cbn [sum2 fold_right]. unfold tok_cost at 1. rewrite (ty_eqb_neq t TyTokens Ht). lia.
Qed.

Lemma concat_run G bs id leaves raw : ctx_ok G (rev bs) -> NoDup (map fst bs) ->
  match elab env G (ECall id (txt "concat") (plain leaves) raw) None with
  | inr er => Err er
  | inl (te, _) => run O seed (rev bs) te
  end = concat_meaning O (values bs leaves).
Proof.
  intros Hc Hnd. destruct concat_variants as [k Hk]. cbn [elab]. rewrite Hk. clear Hk.
  assert (HVI : forall v, match v with VIdent x => Some x | _ => None end <> None <-> type_of v = TyIdent)
    by (intros []; cbn; split; congruence).
  assert (HVS : forall v, match v with VLitStr x _ => Some x | _ => None end <> None <-> type_of v = TyLitStr)
    by (intros []; cbn; split; congruence).
  assert (HVN : forall v, match v with VLitInt x _ => Some x | _ => None end <> None <-> type_of v = TyLitInt)
    by (intros []; cbn; split; congruence).
  pose proof (values_types G bs leaves Hc Hnd) as Hty.
  pose proof (collect_typed _ _ (values bs leaves) HVI) as HcI. rewrite Hty in HcI.
  pose proof (collect_typed _ _ (values bs leaves) HVS) as HcS. rewrite Hty in HcS.
  pose proof (collect_typed _ _ (values bs leaves) HVN) as HcN. rewrite Hty in HcN.
  set (row1 := ([TyVariadic TyIdent], TyIdent, impl_concat_idents O)).
  set (row2 := ([TyIdent; TyVariadic TyTokens], TyIdent, impl_concat_ident_tokens O)).
  set (row3 := ([TyVariadic TyLitStr], TyLitStr, impl_concat_strs)).
  set (row4 := ([TyVariadic TyLitInt], TyLitInt, impl_concat_ints O)).
  set (row5 := ([TyVariadic TyTokens], TyTokens, impl_concat_tokens)).
  assert (Hnum : number_variants (txt "concat") k concat_rows =
    [mkf (txt "concat") k row1; mkf (txt "concat") (N.succ k) row2; mkf (txt "concat") (N.succ (N.succ k)) row3;
     mkf (txt "concat") (N.succ (N.succ (N.succ k))) row4; mkf (txt "concat") (N.succ (N.succ (N.succ (N.succ k)))) row5]) by reflexivity.
  rewrite Hnum. clear Hnum. cbn [viable].
  unfold row1, row3, row4. rewrite !elab_func_rigid with (c0 := 0%N) by (try reflexivity; auto).
  unfold row2. rewrite elab_func_ident_tokens with (c0 := 0%N) by reflexivity.
  unfold row5. rewrite elab_func_tokens with (c0 := 0%N) by reflexivity. fold row1 row2 row3 row4 row5.
  destruct leaves as [|l leaves]; [reflexivity|].
  assert (Hne : leaf_types G (l :: leaves) <> []) by discriminate.
  unfold concat_meaning. cbn [values map]. fold (values bs leaves).
  change (lookup_value bs (snd l) :: values bs leaves) with (values bs (l :: leaves)).
  rewrite idents_collect, strings_collect, ints_collect.
  destruct (collect_args _ (values bs (l :: leaves))) as [li|] eqn:Ei in HcI |- *.
  - (* all identifiers *)
    rewrite HcI.
    rewrite (rigid_excl TyIdent TyLitStr _ Hne) by (congruence || exact HcI).
    rewrite (rigid_excl TyIdent TyLitInt _ Hne) by (congruence || exact HcI).
    pose proof (sum2_rigid_pos TyIdent _ Hne ltac:(discriminate) HcI) as Hpos.
    assert (Hbest : exists tail, best
      ((0%N, mkf (txt "concat") k row1, map (fun l0 : N * value => TEVal (snd l0) TyIdent) (l :: leaves)) :: tail) =
      Some (0%N, mkf (txt "concat") k row1, map (fun l0 : N * value => TEVal (snd l0) TyIdent) (l :: leaves)) /\
      tail = match
        match leaves with
        | [] => None
        | l' :: rest =>
            if ty_eqb TyIdent (static_type G (snd l))
            then Some ((0 + sum2 (leaf_types G (l' :: rest)))%N,
                    TEVal (snd l) TyIdent :: map (fun l0 : N * value => TEVal (snd l0) TyTokens) (l' :: rest))
            else None
        end with
        | Some (c, tes) => [(c, mkf (txt "concat") (N.succ k) row2, tes);
                            ((0 + sum2 (leaf_types G (l :: leaves)))%N, mkf (txt "concat") (N.succ (N.succ (N.succ (N.succ k)))) row5,
                             map (fun l0 : N * value => TEVal (snd l0) TyTokens) (l :: leaves))]
        | None => [((0 + sum2 (leaf_types G (l :: leaves)))%N, mkf (txt "concat") (N.succ (N.succ (N.succ (N.succ k)))) row5,
                             map (fun l0 : N * value => TEVal (snd l0) TyTokens) (l :: leaves))]
        end).
    { eexists. split; [|reflexivity].
      destruct leaves as [|l' rest].
      - cbn [best fst]. rewrite worse_cost by (rewrite N.add_0_l; exact Hpos). reflexivity.
      - destruct (ty_eqb TyIdent (static_type G (snd l))).
        + assert (Hpos' : (0 < sum2 (leaf_types G (l' :: rest)))%N).
          { apply (sum2_rigid_pos TyIdent); try discriminate. cbn in HcI |- *. apply andb_prop in HcI as [_ H]. exact H. }
          cbn [best fst]. destruct (betterb _ _); cbn [fst]; rewrite worse_cost; try reflexivity; rewrite N.add_0_l; assumption.
        + cbn [best fst]. rewrite worse_cost by (rewrite N.add_0_l; exact Hpos). reflexivity. }
    destruct Hbest as (tail & Hb & Htail). subst tail.
    match goal with |- context [best ?x] => replace (best x) with (Some (0%N, mkf (txt "concat") k row1, map (fun l0 : N * value => TEVal (snd l0) TyIdent) (l :: leaves))) end.
    cbn [run]. rewrite (run_leaves_same G bs TyIdent (l :: leaves) Hc Hnd HcI). cbn [bind].
    fold (values bs (l :: leaves)). cbn [mkf f_impl snd row1]. unfold impl_concat_idents. rewrite Ei.
    unfold new_ident, identifier, fn_concat. destruct (ident_ok O _); [|reflexivity]. cbn. reflexivity.
  - rewrite HcI.
    destruct (collect_args _ (values bs (l :: leaves))) as [ls|] eqn:Es in HcS |- *.
    + (* all strings *)
      rewrite HcS. rewrite (rigid_excl TyLitStr TyLitInt _ Hne) by (congruence || exact HcS).
      pose proof (sum2_rigid_pos TyLitStr _ Hne ltac:(discriminate) HcS) as Hpos.
      assert (Hf : ty_eqb TyIdent (static_type G (snd l)) = false).
      { unfold leaf_types in HcS. cbn [map forallb] in HcS. apply andb_prop in HcS as [H _]. apply ty_eqb_eq in H as <-. reflexivity. }
      rewrite Hf. replace (match leaves with [] => None | _ :: _ => @None (N * list texpr) end) with (@None (N * list texpr)) by (destruct leaves; reflexivity).
      cbn [best fst]. rewrite worse_cost by (rewrite N.add_0_l; exact Hpos).
      cbn [run]. pose proof (run_leaves_same G bs TyLitStr (l :: leaves) Hc Hnd HcS) as Hm. cbn [map] in Hm. rewrite Hm. cbn [bind].
      change (lookup_value bs (snd l) :: map (fun l0 => lookup_value bs (snd l0)) leaves) with (values bs (l :: leaves)). cbn [mkf f_impl snd row3]. unfold impl_concat_strs. rewrite Es. reflexivity.
    + rewrite HcS. destruct (collect_args _ (values bs (l :: leaves))) as [ln|] eqn:En in HcN |- *.
      * (* all integers *)
        rewrite HcN. pose proof (sum2_rigid_pos TyLitInt _ Hne ltac:(discriminate) HcN) as Hpos.
        assert (Hf : ty_eqb TyIdent (static_type G (snd l)) = false).
        { unfold leaf_types in HcN. cbn [map forallb] in HcN. apply andb_prop in HcN as [H _]. apply ty_eqb_eq in H as <-. reflexivity. }
        rewrite Hf. replace (match leaves with [] => None | _ :: _ => @None (N * list texpr) end) with (@None (N * list texpr)) by (destruct leaves; reflexivity).
        cbn [best fst]. rewrite worse_cost by (rewrite N.add_0_l; exact Hpos).
        cbn [run]. pose proof (run_leaves_same G bs TyLitInt (l :: leaves) Hc Hnd HcN) as Hm. cbn [map] in Hm. rewrite Hm. cbn [bind].
        change (lookup_value bs (snd l) :: map (fun l0 => lookup_value bs (snd l0)) leaves) with (values bs (l :: leaves)). cbn [mkf f_impl snd row4]. unfold impl_concat_ints. rewrite En.
        unfold fn_concat. destruct (lit_int_new O _) as [[d r]|]; reflexivity.
      * rewrite HcN. destruct (ty_eqb TyIdent (static_type G (snd l))) eqn:Ef.
        -- (* an identifier first *)
           apply ty_eqb_eq in Ef. destruct leaves as [|l' rest].
           { exfalso. cbn in HcI. rewrite <- Ef in HcI. discriminate. }
           assert (Hlt : (0 + sum2 (leaf_types G (l' :: rest)) < 0 + sum2 (leaf_types G (l :: l' :: rest)))%N).
           { unfold leaf_types. cbn [map]. rewrite <- Ef. cbn [sum2 fold_right]. unfold tok_cost at 3. cbn [ty_eqb]. lia. }
           cbn [best fst]. rewrite worse_cost by exact Hlt.
           destruct (run_leaf_same G bs (snd l) Hc Hnd) as [_ Ht].
           pose proof (run_leaves_ident_tokens G bs l (l' :: rest) Hc Hnd Ef) as Hm. cbn [map] in Hm.
           cbn [run map]. rewrite Hm. cbn [bind mkf f_impl snd row2].
           unfold impl_concat_ident_tokens.
           replace (VTokens (to_tokens (lookup_value bs (snd l'))) :: map (fun l0 : N * value => VTokens (to_tokens (lookup_value bs (snd l0)))) rest)
             with (map (fun v => VTokens (to_tokens v)) (values bs (l' :: rest))) by (unfold values; rewrite map_map; reflexivity).
           rewrite collect_token_texts. rewrite <- Ef in Ht. destruct (lookup_value bs (snd l)) as [x| | | | | | |] eqn:Ex; try discriminate.
           cbn [values map]. unfold fn_concat, text_of.
           destruct (parse_str_ident O _); reflexivity.
        -- (* anything else *)
           replace (match leaves with [] => None | _ :: _ => @None (N * list texpr) end) with (@None (N * list texpr)) by (destruct leaves; reflexivity).
           cbn [best]. cbn [run]. pose proof (run_leaves_tokens G bs (l :: leaves) Hc Hnd) as Hm. cbn [map] in Hm. rewrite Hm. cbn [bind mkf f_impl snd row5].
           unfold impl_concat_tokens.
           replace (VTokens (to_tokens (lookup_value bs (snd l))) :: map (fun l0 : N * value => VTokens (to_tokens (lookup_value bs (snd l0)))) leaves)
             with (map (fun v => VTokens (to_tokens v)) (values bs (l :: leaves))) by (unfold values; rewrite map_map; reflexivity).
           rewrite collect_tokens. cbn [bind].
           destruct (run_leaf_same G bs (snd l) Hc Hnd) as [_ Ht].
           cbn [values map]. destruct (lookup_value bs (snd l)) as [x| | | | | | |] eqn:Ex; try reflexivity.
           cbn in Ht. rewrite <- Ht in Ef. discriminate.
Qed.
End Plain.
