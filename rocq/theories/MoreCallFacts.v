(** Calls of hash, raw and the casting functions; decimal numerals. *)
From Coq Require Import String.
From Verif Require Import Base BaseFacts Token Types TypesProofs Values Ast Env Resolve Eval SpecElab SpecScope SpecPrograms SpecCalls ElabProofs ElabFacts BuiltinFacts CallFacts.

(** ** Decimal numerals *)
Lemma numeral_acc x : forall a,
  fold_left (fun v c => (v * 10 + (c - 48))%N) x a = (a * 10 ^ N.of_nat (List.length x) + numeral_value x)%N.
Proof.
  unfold numeral_value. induction x as [|c x IH]; intros a; [cbn; lia|]. cbn [fold_left List.length].
  rewrite IH, (IH (0 * 10 + (c - 48))%N), Nat2N.inj_succ, N.pow_succ_r'. ring.
Qed.

Lemma numeral_cons c x : numeral_value (c :: x) = ((c - 48) * 10 ^ N.of_nat (List.length x) + numeral_value x)%N.
Proof. unfold numeral_value at 1. cbn [fold_left]. rewrite numeral_acc, N.mul_0_l, N.add_0_l. reflexivity. Qed.

Lemma digit_sub (m : N) : (48 + m - 48 = m)%N.
Proof. lia. Qed.

Lemma decimal_fuel_value fuel : forall n acc, (n < 2 ^ N.of_nat fuel)%N -> fuel <> 0 ->
  numeral_value (decimal_fuel fuel n acc) = (n * 10 ^ N.of_nat (List.length acc) + numeral_value acc)%N.
Proof.
  induction fuel as [|fuel IH]; intros n acc Hn Hf; [congruence|]. cbn [decimal_fuel].
  pose proof (N.div_mod n 10 ltac:(discriminate)) as Hdm.
  pose proof (N.mod_lt n 10 ltac:(discriminate)) as Hm.
  destruct (N.eqb_spec (n / 10) 0) as [E|E].
  - rewrite numeral_cons. rewrite digit_sub. rewrite E, N.mul_0_r, N.add_0_l in Hdm. rewrite <- Hdm. reflexivity.
  - rewrite Nat2N.inj_succ, N.pow_succ_r' in Hn. rewrite IH.
    + rewrite numeral_cons. cbn [List.length]. rewrite Nat2N.inj_succ, N.pow_succ_r'.
      rewrite digit_sub.
      rewrite Hdm at 3. ring.
    + apply N.div_lt_upper_bound; lia.
    + intros ->. cbn in Hn. assert (n = 0 \/ n = 1)%N as [->| ->] by lia; apply E; reflexivity.
Qed.

Lemma decimal_fuel_digits fuel : forall n acc, Forall (fun c => (48 <= c <= 57)%N) acc ->
  Forall (fun c => (48 <= c <= 57)%N) (decimal_fuel fuel n acc).
Proof.
  induction fuel as [|fuel IH]; intros n acc H; [exact H|]. cbn [decimal_fuel].
  pose proof (N.mod_lt n 10 ltac:(discriminate)) as Hm.
  assert (Hd : (48 <= 48 + n mod 10 <= 57)%N) by (clear IH H; generalize dependent (n mod 10)%N; intros m Hm; lia).
  assert (H' : Forall (fun c => (48 <= c <= 57)%N) ((48 + n mod 10)%N :: acc)) by (constructor; [exact Hd|exact H]).
  destruct (n / 10 =? 0)%N; [exact H'|apply IH; exact H'].
Qed.

Lemma decimal_fuel_nonempty fuel : forall n acc, acc <> [] -> decimal_fuel fuel n acc <> [].
Proof. induction fuel as [|fuel IH]; intros n acc H; [exact H|]. cbn. destruct (n / 10 =? 0)%N; [discriminate|apply IH; discriminate]. Qed.

Lemma size_nat_bound n : (n < 2 ^ N.of_nat (N.size_nat n))%N.
Proof.
  destruct n as [|p]; [reflexivity|]. cbn [N.size_nat]. induction p as [p IH|p IH|]; cbn [Pos.size_nat]; [| |reflexivity];
    rewrite Nat2N.inj_succ, N.pow_succ_r'; lia.
Qed.

Lemma decimal_value n : numeral_value (decimal n) = n.
Proof.
  unfold decimal. rewrite decimal_fuel_value.
  - cbn. lia.
  - rewrite Nat2N.inj_succ, N.pow_succ_r'. pose proof (size_nat_bound n). lia.
  - discriminate.
Qed.
Lemma decimal_numeral n : is_numeral (decimal n).
Proof.
  split; [|apply decimal_fuel_digits; constructor].
  unfold decimal. cbn [decimal_fuel]. destruct (n / 10 =? 0)%N; [discriminate|apply decimal_fuel_nonempty; discriminate].
Qed.

Section Calls.
Context (O : oracles) (seed first : N).
Let env := new_initialized O seed first.

(** ** hash *)
Definition hash_rows : list (list ty * ty * (N -> list value -> res value)) :=
  [ ([TyLitStr], TyLitStr, impl_hash_str O);
    ([TyIdent], TyIdent, impl_hash_ident O);
    ([TyTokens], TyIdent, impl_hash_tokens O) ].
Lemma hash_variants : exists k, get_func_variants env (txt "hash") = Some (number_variants (txt "hash") k hash_rows).
Proof. eexists. reflexivity. Qed.

Lemma elab_func_one name k t out im G id v raw : is_variadic_ty t = false -> t <> TyRaw ->
  elab_func (mkf name k ([t], out, im)) (map (elab env G) (plain [(id, v)])) raw None =
  match coercion_cost (static_type G v) t with
  | Some c => Some (c, [TEVal v t])
  | None => None
  end.
Proof.
  intros Hv Hr. unfold elab_func. cbn [mkf f_arg_types fst snd].
  replace (params (mkf name k ([t], out, im)) (List.length (map (elab env G) (plain [(id, v)])))) with (Some [(t, 1%N)]).
  2:{ unfold params, variadic_arg_type, non_variadic_arg_types, num_args. cbn. rewrite Hv. reflexivity. }
  cbn [plain map elab_args fst snd]. cbn [elab].
  destruct (coercion_cost (static_type G v) t) as [c|]; [|destruct t; try reflexivity; congruence].
  replace (0 + (c * 1 + 0))%N with c by lia. destruct t; try reflexivity; congruence.
Qed.

Lemma hash_run G bs id lid v raw : ctx_ok G (rev bs) -> NoDup (map fst bs) ->
  match elab env G (ECall id (txt "hash") (plain [(lid, v)]) raw) None with
  | inr er => Err er
  | inl (te, _) => run O seed (rev bs) te
  end = hash_meaning O seed (lookup_value bs v).
Proof.
  intros Hc Hnd. destruct hash_variants as [k Hk]. cbn [elab]. rewrite Hk. clear Hk.
  set (r1 := ([TyLitStr], TyLitStr, impl_hash_str O)).
  set (r2 := ([TyIdent], TyIdent, impl_hash_ident O)).
  set (r3 := ([TyTokens], TyIdent, impl_hash_tokens O)).
  assert (Hnum : number_variants (txt "hash") k hash_rows =
    [mkf (txt "hash") k r1; mkf (txt "hash") (N.succ k) r2; mkf (txt "hash") (N.succ (N.succ k)) r3]) by reflexivity.
  rewrite Hnum. clear Hnum. cbn [viable]. unfold r1, r2, r3. rewrite !elab_func_one by (reflexivity || discriminate).
  fold r1 r2 r3. rewrite coerce_tokens.
  pose proof (run_leaf_tokens O seed G bs v Hc Hnd) as Htok.
  destruct (run_leaf_same O seed G bs v Hc Hnd) as [Hr Ht].
  destruct (static_type G v) eqn:Es; cbn [coercion_cost coercion_cost_basic ty_eqb tok_cost best fst];
    try rewrite !worse_cost by lia; unfold hash_meaning, identifier;
    (destruct (lookup_value bs v) eqn:El; cbn in Ht; try discriminate Ht);
    cbn [run mapM]; cbn [run] in Hr, Htok; rewrite ?Hr, ?Htok; cbn [bind mkf f_impl fst snd r1 r2 r3 impl_hash_str impl_hash_ident impl_hash_tokens];
    unfold new_ident, fn_hash, text_of;
    try (destruct (ident_ok O _)); reflexivity.
Qed.

(** ** raw *)
Lemma raw_run G bs id args rid ts :
  match elab env G (ECall id (txt "raw") args (Some (rid, ts))) None with
  | inr er => Err er
  | inl (te, _) => run O seed (rev bs) te
  end = Ok (VTokens ts).
Proof. reflexivity. Qed.

Lemma cast_raw_run G bs t id id' args args' raw rid ts :
  (forall t', t <> TyVariadic t') -> t <> TyRaw ->
  args' = [ECall id' (txt "raw") args (Some (rid, ts))] ->
  match elab env G (ECall id (cast_name t) args' raw) None with
  | inr er => Err er
  | inl (te, _) => run O seed (rev bs) te
  end = try_cast O (VTokens ts) t.
Proof.
  intros Hv Hr ->. destruct t; try congruence; try (exfalso; eapply Hv; reflexivity);
    (* every casting function has one overload *)
    unfold cast_name;
    match goal with |- match elab _ _ (ECall _ (txt ?n) _ _) _ with _ => _ end = try_cast _ _ ?t =>
      assert (Hg : exists k, get_func_variants env (txt n) =
        Some (number_variants (txt n) k [([TyTokens], t, match t with TyTokens => impl_to_tokens | _ => impl_to O t end)])) by (eexists; reflexivity)
    end; destruct Hg as [k Hg]; cbn [elab]; rewrite Hg; clear Hg;
    cbn -[try_cast]; change (try_cast O (VRaw ts) TyRaw) with (@Ok value (VRaw ts)); cbn -[try_cast];
    change (try_cast O (VTokens ts) TyTokens) with (@Ok value (VTokens ts)); cbn -[try_cast]; try reflexivity;
    destruct (try_cast O (VTokens ts) _) as [w| |] eqn:E; cbn -[try_cast]; try reflexivity;
    try (pose proof (cast_type _ _ _ _ E) as Ht; rewrite <- Ht; rewrite cast_same; reflexivity).
Qed.

(** ** The README's composed paths and types (C14) *)
Definition joined (vs : list value) : str := List.concat (map (text_of O) vs).

Lemma concat_as_tokens G bs id raw l l' rest : ctx_ok G (rev bs) -> NoDup (map fst bs) ->
  static_type G (snd l) = TyIdent -> forallb (ty_eqb TyIdent) (leaf_types G (l' :: rest)) = false ->
  exists te c, elab env G (ECall id (txt "concat") (plain (l :: l' :: rest)) raw) (Some TyTokens) = inl (te, c) /\
  run O seed (rev bs) te =
  match parse_str_ident O (joined (values bs (l :: l' :: rest))) with
  | Some z => Ok (VTokens [TIdent z])
  | None => Err EvalError
  end.
Proof.
  intros Hc Hnd Hl Hnot. destruct (concat_variants O seed first) as [k Hk]. cbn [elab]. fold env in Hk. rewrite Hk. clear Hk.
  set (row1 := ([TyVariadic TyIdent], TyIdent, impl_concat_idents O)).
  set (row2 := ([TyIdent; TyVariadic TyTokens], TyIdent, impl_concat_ident_tokens O)).
  set (row3 := ([TyVariadic TyLitStr], TyLitStr, impl_concat_strs)).
  set (row4 := ([TyVariadic TyLitInt], TyLitInt, impl_concat_ints O)).
  set (row5 := ([TyVariadic TyTokens], TyTokens, impl_concat_tokens)).
  assert (Hnum : number_variants (txt "concat") k (concat_rows O) =
    [mkf (txt "concat") k row1; mkf (txt "concat") (N.succ k) row2; mkf (txt "concat") (N.succ (N.succ k)) row3;
     mkf (txt "concat") (N.succ (N.succ (N.succ k))) row4; mkf (txt "concat") (N.succ (N.succ (N.succ (N.succ k)))) row5]) by reflexivity.
  rewrite Hnum. clear Hnum. cbn [viable]. unfold env.
  unfold row1, row3, row4. rewrite !elab_func_rigid with (c0 := 4%N) by (try reflexivity; auto).
  unfold row2. rewrite elab_func_ident_tokens with (c0 := 4%N) by reflexivity.
  unfold row5. rewrite elab_func_tokens with (c0 := 0%N) by reflexivity. fold row1 row2 row3 row4 row5.
  assert (H1 : forallb (ty_eqb TyIdent) (leaf_types G (l :: l' :: rest)) = false).
  { change (leaf_types G (l :: l' :: rest)) with (static_type G (snd l) :: leaf_types G (l' :: rest)). cbn [forallb]. rewrite Hnot. apply andb_false_r. }
  assert (H3 : forall t, t <> TyIdent -> forallb (ty_eqb t) (leaf_types G (l :: l' :: rest)) = false).
  { intros t Ht. change (leaf_types G (l :: l' :: rest)) with (static_type G (snd l) :: leaf_types G (l' :: rest)). cbn [forallb].
    rewrite Hl, (ty_eqb_neq t TyIdent Ht). reflexivity. }
  rewrite H1, !H3 by discriminate. rewrite Hl. cbn [ty_eqb best fst].
  rewrite worse_cost.
  2:{ change (leaf_types G (l :: l' :: rest)) with (static_type G (snd l) :: leaf_types G (l' :: rest)). rewrite Hl.
      change (sum2 (TyIdent :: leaf_types G (l' :: rest))) with (8 + sum2 (leaf_types G (l' :: rest)))%N. lia. }
  eexists. eexists. split; [reflexivity|].
  destruct (run_leaf_same O seed G bs (snd l) Hc Hnd) as [_ Ht]. rewrite Hl in Ht.
  pose proof (run_leaves_ident_tokens O seed G bs l (l' :: rest) Hc Hnd (eq_sym Hl)) as Hm. cbn [map] in Hm.
  cbn [run map]. rewrite Hm. cbn [bind mkf f_impl snd row2]. unfold impl_concat_ident_tokens.
  replace (VTokens (to_tokens (lookup_value bs (snd l'))) :: map (fun l0 : N * value => VTokens (to_tokens (lookup_value bs (snd l0)))) rest)
    with (map (fun v => VTokens (to_tokens v)) (values bs (l' :: rest))) by (unfold values; rewrite map_map; reflexivity).
  rewrite collect_token_texts. unfold joined. cbn [values map].
  destruct (lookup_value bs (snd l)) as [x| | | | | | |] eqn:Ex; try discriminate.
  unfold fn_concat, text_of. destruct (parse_str_ident O _); reflexivity.
Qed.

(** A casting function applied to a call that elaborates at type tokens. *)
Lemma cast_of_run G ctx t id raw e te c :
  (forall t', t <> TyVariadic t') -> t <> TyRaw -> t <> TyTokens ->
  elab env G e (Some TyTokens) = inl (te, c) ->
  match elab env G (ECall id (cast_name t) [e] raw) None with
  | inr er => Err er
  | inl (te, _) => run O seed ctx te
  end =
  let! v := run O seed ctx te in
  match v with VTokens ts => try_cast O (VTokens ts) t | _ => Panic PArgType end.
Proof.
  intros Hv Hr Htk He. destruct t; try congruence; try (exfalso; eapply Hv; reflexivity);
    unfold cast_name;
    match goal with |- match elab _ _ (ECall _ (txt ?n) _ _) _ with _ => _ end = _ =>
      match goal with |- context [try_cast O (VTokens _) ?t] =>
      assert (Hg : exists k, get_func_variants env (txt n) =
        Some (number_variants (txt n) k [([TyTokens], t, impl_to O t)])) by (eexists; reflexivity)
    end end; destruct Hg as [k Hg]; cbn [elab map]; rewrite Hg; clear Hg;
    cbn -[try_cast elab run]; rewrite He; cbn -[try_cast elab]; (destruct (run O seed ctx te) as [v| |]; cbn -[try_cast]; try reflexivity);
    (destruct v; cbn -[try_cast]; try reflexivity);
    (destruct (try_cast O (VTokens ts) _) as [w| |] eqn:E; cbn -[try_cast]; try reflexivity);
    pose proof (cast_type _ _ _ _ E) as Ht; rewrite <- Ht; rewrite cast_same; reflexivity.
Qed.

(** concat whose first argument is made tokens explicitly joins tokens. *)
Lemma cast_of_token_concat G bs t id id' id2 raw raw' raw2 l rest :
  (forall t', t <> TyVariadic t') -> t <> TyRaw -> t <> TyTokens ->
  ctx_ok G (rev bs) -> NoDup (map fst bs) ->
  match elab env G (ECall id (cast_name t)
          [ECall id' (txt "concat") (ECall id2 (txt "to_tokens") (plain [l]) raw2 :: plain rest) raw'] raw) None with
  | inr er => Err er
  | inl (te, _) => run O seed (rev bs) te
  end = try_cast O (VTokens (List.concat (map to_tokens (values bs (l :: rest))))) t.
Proof.
  intros Hv Hr Htk Hc Hnd.
  assert (Hg : exists k, get_func_variants env (txt "to_tokens") = Some (number_variants (txt "to_tokens") k [([TyTokens], TyTokens, impl_to_tokens)])) by (eexists; reflexivity).
  destruct Hg as [kt Hg].
  set (inner := ECall id2 (txt "to_tokens") (plain [l]) raw2).
  set (ft := {| f_id := kt; f_name := txt "to_tokens"; f_arg_types := [TyTokens]; f_out_type := TyTokens; f_impl := impl_to_tokens |}).
  assert (Hin : forall ex, elab env G inner ex =
    match match ex with Some u => coercion_cost TyTokens u | None => Some 0%N end with
    | Some c0 => inl (TECall ft [TEVal (snd l) TyTokens] (match ex with Some u => u | None => TyTokens end), (c0 + (tok_cost (static_type G (snd l)) * 1 + 0))%N)
    | None => inr (SignatureError (txt "to_tokens"))
    end).
  { intros ex. unfold inner. cbn [elab]. rewrite Hg. cbn [number_variants viable]. fold ft. unfold elab_func. cbn [ft f_out_type f_arg_types].
    destruct (match ex with Some u => coercion_cost TyTokens u | None => Some 0%N end) as [c0|]; [|reflexivity].
    change (params ft (List.length (map (elab env G) (plain [l])))) with (Some [(TyTokens, 1%N)]).
    cbn [plain map elab_args fst snd]. cbn [elab]. rewrite coerce_tokens. reflexivity. }
  clearbody inner. clear Hg.
  destruct (concat_variants O seed first) as [k Hk]. fold env in Hk.
  assert (He : exists te c, elab env G (ECall id' (txt "concat") (inner :: plain rest) raw') (Some TyTokens) = inl (te, c) /\
     run O seed (rev bs) te = Ok (VTokens (List.concat (map to_tokens (values bs (l :: rest)))))).
  { cbn [elab]. rewrite Hk. clear Hk.
    set (f5 := mkf (txt "concat") (N.succ (N.succ (N.succ (N.succ k)))) ([TyVariadic TyTokens], TyTokens, impl_concat_tokens)).
    set (cost := (tok_cost (static_type G (snd l)) * 1 + 0)%N).
    assert (Hvb : viable (number_variants (txt "concat") k (concat_rows O)) (map (elab env G) (inner :: plain rest)) (option_map snd raw') (Some TyTokens) =
      [((0 + ((0 + cost) * 2 + sum2 (leaf_types G rest)))%N, f5,
         TECall ft [TEVal (snd l) TyTokens] TyTokens :: map (fun l => TEVal (snd l) TyTokens) rest)]).
    { unfold concat_rows. cbn [number_variants viable map].
      assert (Hno : forall f t0 rs, (t0 = TyIdent \/ t0 = TyLitStr \/ t0 = TyLitInt) ->
        f_arg_types f <> [TyRaw] ->
        (forall n ps, params f (S n) = Some ps -> exists m ps', ps = (t0, m) :: ps') ->
        elab_func f (elab env G inner :: rs) (option_map snd raw') (Some TyTokens) = None).
      { intros f t0 rs Ht0 Hnr Hp. unfold elab_func. destruct (coercion_cost (f_out_type f) TyTokens) as [c0|]; [|reflexivity].
        assert (Hgen : match params f (List.length (elab env G inner :: rs)) with
          | Some ps => match elab_args ps (elab env G inner :: rs) with Some (c, tes) => Some ((c0 + c)%N, tes) | None => None end
          | None => None end = None).
        { destruct (params f (List.length (elab env G inner :: rs))) as [ps|] eqn:E; [|reflexivity].
          destruct (Hp _ _ E) as (m & ps' & ->). cbn [elab_args]. rewrite Hin.
          destruct Ht0 as [-> | [-> | ->]]; reflexivity. }
        destruct (f_arg_types f) as [|t1 ts1] eqn:Ea; [exact Hgen|]. destruct t1; try exact Hgen. destruct ts1; [congruence|exact Hgen]. }
      assert (Hno1 : forall i nm t0 out im rs, (t0 = TyIdent \/ t0 = TyLitStr \/ t0 = TyLitInt) ->
        elab_func {| f_id := i; f_name := nm; f_arg_types := [TyVariadic t0]; f_out_type := out; f_impl := im |}
          (elab env G inner :: rs) (option_map snd raw') (Some TyTokens) = None).
      { intros i nm t0 out im rs Ht0. apply (Hno _ t0); [exact Ht0|discriminate|]. intros n ps Hq.
        unfold params, variadic_arg_type, non_variadic_arg_types, num_args in Hq. cbn in Hq. injection Hq as <-. eauto. }
      assert (Hno2 : forall i nm out im rs,
        elab_func {| f_id := i; f_name := nm; f_arg_types := [TyIdent; TyVariadic TyTokens]; f_out_type := out; f_impl := im |}
          (elab env G inner :: rs) (option_map snd raw') (Some TyTokens) = None).
      { intros i nm out im rs. apply (Hno _ TyIdent); [auto|discriminate|]. intros n ps Hq.
        unfold params, variadic_arg_type, non_variadic_arg_types, num_args in Hq. cbn in Hq. destruct n; [discriminate|].
        injection Hq as <-. eauto. }
      rewrite !Hno1, Hno2 by auto.
      fold f5. unfold elab_func.
      change {| f_id := N.succ (N.succ (N.succ (N.succ k))); f_name := txt "concat"; f_arg_types := [TyVariadic TyTokens]; f_out_type := TyTokens; f_impl := impl_concat_tokens |} with f5.
      change (f_out_type f5) with TyTokens. change (f_arg_types f5) with [TyVariadic TyTokens]. cbn [coercion_cost coercion_cost_basic ty_eqb].
      replace (params f5 (List.length (elab env G inner :: map (elab env G) (plain rest)))) with (Some ((TyTokens, 2%N) :: repeat (TyTokens, 2%N) (List.length rest))).
      2:{ unfold params, variadic_arg_type, non_variadic_arg_types, num_args, plain. cbn. rewrite !map_length. reflexivity. }
      cbn [elab_args]. rewrite Hin. cbn [coercion_cost coercion_cost_basic ty_eqb]. fold cost.
      unfold env. rewrite elab_args_tokens. reflexivity. }
    rewrite Hvb. cbn [best]. eexists. eexists. split; [reflexivity|].
    cbn [run]. cbn [mapM]. cbn [run]. cbn [mapM]. rewrite (run_leaf_tokens O seed G bs (snd l) Hc Hnd). cbn [bind ft f_impl impl_to_tokens try_cast type_of ty_eqb].
    rewrite (run_leaves_tokens O seed G bs rest Hc Hnd). cbn [bind f5 mkf f_impl snd]. unfold impl_concat_tokens.
    change (VTokens (to_tokens (lookup_value bs (snd l))) :: map (fun l => VTokens (to_tokens (lookup_value bs (snd l)))) rest)
      with (map (fun l => VTokens (to_tokens (lookup_value bs (snd l)))) (l :: rest)).
    replace (map (fun l => VTokens (to_tokens (lookup_value bs (snd l)))) (l :: rest)) with (map (fun v => VTokens (to_tokens v)) (values bs (l :: rest)))
      by (unfold values; rewrite map_map; reflexivity).
    rewrite collect_tokens. reflexivity. }
  destruct He as (te & c & He & Hrun).
  rewrite (cast_of_run G (rev bs) t id raw _ te c Hv Hr Htk He), Hrun. reflexivity.
Qed.
End Calls.
