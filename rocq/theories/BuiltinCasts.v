(** The result of a built-in function always casts to the type its place asks for. *)
From Coq Require Import String.
From Verif Require Import Base BaseFacts Types TypesProofs Values Ast Env Resolve Eval SpecElab ElabProofs ElabFacts BuiltinFacts.
Open Scope list_scope.

Section Builtin.
Context (O : oracles) (seed first : N).
Let env := new_initialized O seed first.

(** Every built-in function makes values of its result type only. *)
Definition row_result (r : row) : Prop :=
  Forall (fun x => forall seed vs v, snd x seed vs = Ok v -> type_of v = snd (fst x)) (snd r).
Lemma table_result : Forall row_result (table O).
Proof.
  assert (Hi : forall x v, new_ident O x = Ok v -> type_of v = TyIdent)
    by (intros x v; unfold new_ident; destruct (ident_ok O x); [intros H; injection H as <-; reflexivity|discriminate]).
  assert (Hto : forall t seed vs v, impl_to O t seed vs = Ok v -> type_of v = t).
  { intros t sd vs v. unfold impl_to. destruct vs as [|[] [|]]; try discriminate. apply cast_type. }
  repeat (first [apply Forall_nil|apply Forall_cons]); intros sd vs v H; cbn [fst snd] in *;
    try exact (Hto _ sd vs v H);
    try (destruct vs as [|[] [|]]; try discriminate; first [eapply Hi; exact H|injection H as <-; reflexivity]; fail).
  - unfold impl_concat_idents in H. destruct (collect_args _ vs); [eapply Hi; exact H|discriminate].
  - unfold impl_concat_ident_tokens in H. destruct vs as [|x vs]; [discriminate|]. destruct (collect_args _ vs); [|discriminate].
    destruct (parse_str_ident O _); [injection H as <-; reflexivity|discriminate].
  - unfold impl_concat_strs in H. destruct (collect_args _ vs); [injection H as <-; reflexivity|discriminate].
  - unfold impl_concat_ints in H. destruct (collect_args _ vs); [|discriminate]. destruct (lit_int_new O _) as [[]|]; [injection H as <-; reflexivity|discriminate].
  - unfold impl_concat_tokens in H. destruct (collect_args _ vs); [injection H as <-; reflexivity|discriminate].
Qed.
Lemma builtin_result name fs f sd vs v : get_func_variants env name = Some fs -> In f fs ->
  f_impl f sd vs = Ok v -> type_of v = f_out_type f.
Proof.
  intros Hg Hf. destruct (builtin_variants O seed first _ _ Hg) as (k & rs & Hin & ->).
  pose proof (number_variants_in _ _ _ _ Hf) as [Hrow _].
  pose proof table_result as H. rewrite Forall_forall in H. specialize (H _ Hin). unfold row_result in H. rewrite Forall_forall in H.
  exact (H _ Hrow sd vs v).
Qed.

(** The type a typed expression has before the cast its place asks for. *)
Definition natural (G : tenv) (te : texpr) : ty :=
  match te with TEVal v _ => static_type G v | TECall f _ _ => f_out_type f end.

(** An identifier is cheaper where an identifier is expected. *)
Lemma ident_cheaper G a t te c : elab env G a (Some t) = inl (te, c) -> natural G te = TyIdent -> needs_parser t = true ->
  exists te' c', elab env G a (Some TyIdent) = inl (te', c') /\ (c' < c)%N.
Proof.
  intros H Hn Ht. destruct a as [id v|id name args raw]; cbn [elab] in H |- *.
  - destruct (coercion_cost (static_type G v) t) as [ct|] eqn:Ect; [|discriminate]. injection H as <- <-. cbn in Hn. rewrite Hn in *.
    exists (TEVal v TyIdent), 0%N. split; [reflexivity|]. destruct t; cbn in Ht, Ect; try discriminate; injection Ect as <-; lia.
  - destruct (get_func_variants env name) as [fs|]; [|discriminate].
    destruct (best (viable fs (map (elab env G) args) _ (Some t))) as [[[d f] tes]|] eqn:Eb; [|discriminate]. injection H as <- <-. cbn in Hn.
    pose proof (best_in _ _ Eb) as Hv. apply viable_in in Hv as [Hf He].
    assert (exists d', elab_func f (map (elab env G) args) (option_map snd raw) (Some TyIdent) = Some (d', tes) /\ (d' < d)%N) as (d' & He' & Hd).
    { unfold elab_func in He |- *. rewrite Hn in *. change (coercion_cost TyIdent TyIdent) with (Some 0%N).
      destruct (coercion_cost TyIdent t) as [c0|] eqn:Ec; [|discriminate].
      assert (0 < c0)%N by (destruct t; cbn in Ht, Ec; try discriminate; injection Ec as <-; lia).
      assert (K : forall x : option (N * list texpr), match x with Some (c, tes) => Some ((c0 + c)%N, tes) | None => None end = Some (d, tes) ->
         exists d', match x with Some (c, tes) => Some ((0 + c)%N, tes) | None => None end = Some (d', tes) /\ (d' < d)%N).
      { intros [[c tes']|]; [|discriminate]. intros E. injection E as <- <-. eexists. split; [reflexivity|lia]. }
      destruct (f_arg_types f) as [|u us];
        [|destruct u, us; try (destruct (option_map snd raw); [injection He as <- <-; exists 0%N; split; [reflexivity|assumption]|])];
        (destruct (params f _); [apply K; exact He|discriminate]). }
    destruct (best (viable fs (map (elab env G) args) (option_map snd raw) (Some TyIdent))) as [[[d2 f2] tes2]|] eqn:Eb2.
    + exists (TECall f2 tes2 TyIdent), d2. split; [reflexivity|].
      pose proof (best_min _ _ Eb2 _ (proj2 (viable_in _ _ _ _ _ _ _) (conj Hf He'))) as Hm.
      change (betterb (d', f) (d2, f2) = false) in Hm.
      destruct (N.lt_ge_cases d2 d) as [Hlt|Hge]; [exact Hlt|]. exfalso.
      assert (Hbt : better (d', f) (d2, f2)) by (left; lia). apply betterb_better in Hbt. congruence.
    + exfalso. rewrite best_none_iff in Eb2. rewrite (Eb2 f Hf) in He'. discriminate.
Qed.

(** In a chosen overload no argument that is an identifier is coerced to a type or an
    expression. *)
Lemma chosen_natural G name args raw ex fs c f tes ps i a p te ci :
  get_func_variants env name = Some fs ->
  best (viable fs (map (elab env G) args) raw ex) = Some (c, f, tes) ->
  ~ (f_arg_types f = [TyRaw] /\ raw <> None) ->
  params f (List.length args) = Some ps ->
  nth_error args i = Some a -> nth_error ps i = Some p -> elab env G a (Some (fst p)) = inl (te, ci) ->
  natural G te = TyIdent -> needs_parser (fst p) = false.
Proof.
  intros Hg Hb Hnr Hps Ha Hp Hte Hn. destruct (needs_parser (fst p)) eqn:En; [|reflexivity]. exfalso.
  pose proof (builtin_variants O seed first _ _ Hg) as (k & rs & Hin & ->).
  pose proof (best_in _ _ Hb) as Hv. apply viable_in in Hv as [Hf He].
  pose proof (number_variants_in _ _ _ _ Hf) as [Hrow _].
  pose proof (table_shape O) as Hsh. rewrite Forall_forall in Hsh. specialize (Hsh _ Hin _ _ _ Hrow).
  pose proof (params_in _ _ _ p Hps (nth_error_In _ _ Hp)) as Hpin.
  destruct Hsh as [Hsh|(t & Ht & Hnv & im' & Him)].
  - destruct Hpin as [[Hpin _]|Hpin].
    + destruct (Hsh _ Hpin) as [H _]. congruence.
    + destruct (Hsh _ Hpin) as [_ H]. rewrite (H _ eq_refl) in En. discriminate.
  - destruct (number_variants_map rs name k _ _ _ Him) as (g & Hgin & Eg1 & Eg2 & _).
    assert (Hpt : params f (List.length args) = (if Nat.eqb 1 (List.length args) then Some [(t, 1%N)] else None)).
    { unfold params, variadic_arg_type, non_variadic_arg_types, num_args. rewrite Ht. cbn. rewrite Hnv. reflexivity. }
    rewrite Hps in Hpt. destruct args as [|a0 [|a1 args]]; try discriminate. cbn in Hpt. injection Hpt as ->.
    destruct i as [|i]; [|destruct i; discriminate]. cbn in Ha, Hp. injection Ha as <-. injection Hp as <-.
    cbn in En, Hte.
    apply elab_func_inv in He as (c0 & Hc0 & [(ts & Hr1 & Hr2 & _)|(_ & ps' & c' & Hps' & Hargs & ->)]).
    { apply Hnr. split; [exact Hr1|congruence]. }
    cbn [map List.length] in Hps, Hps', Hargs. rewrite Hps in Hps'. injection Hps' as <-. cbn [elab_args] in Hargs.
    rewrite Hte in Hargs. injection Hargs as <- <-.
    destruct (ident_cheaper G a0 t te ci Hte Hn En) as (te' & ci' & Hte' & Hlt).
    assert (Hge : elab_func g [elab env G a0] raw ex = Some (c0 + (ci' * 1 + 0), [te'])%N).
    { unfold elab_func. rewrite Eg2, Hc0, Eg1.
      replace (params g (List.length [elab env G a0])) with (Some [(TyIdent, 1%N)])
        by (unfold params, variadic_arg_type, non_variadic_arg_types, num_args; rewrite Eg1; reflexivity).
      cbn [elab_args]. rewrite Hte'. reflexivity. }
    pose proof (best_min _ _ Hb _ (proj2 (viable_in _ _ _ _ _ _ _) (conj Hgin Hge))) as Hm.
    match type of Hm with entry_lt (?x, _, _) (?y, _, _) = false => change (betterb (x, g) (y, f) = false) in Hm; assert (Hbt : better (x, g) (y, f)) by (left; lia) end.
    apply betterb_better in Hbt. congruence.
Qed.

(** Every call in the expression gives a value that casts to the type asked for. *)
Fixpoint tame (te : texpr) : Prop :=
  match te with
  | TEVal _ _ => True
  | TECall f tes t => (forall v, type_of v = f_out_type f -> exists w, try_cast O v t = Ok w) /\ fold_right (fun te P => tame te /\ P) True tes
  end.
Lemma elab_tame G e : forall ex te c, elab env G e ex = inl (te, c) ->
  (natural G te = TyIdent -> needs_parser (target_of te) = false) -> tame te.
Proof.
  induction e as [id v|id name args raw IH] using expr_ind'; intros ex te c H Hsafe; cbn [elab] in H.
  - destruct (coercion_cost _ _); [|discriminate]. injection H as <- _. exact I.
  - destruct (get_func_variants env name) as [fs|] eqn:Eg; [|discriminate].
    destruct (best _) as [[[d f] tes]|] eqn:Eb; [|discriminate]. injection H as <- <-. cbn [natural target_of] in Hsafe.
    pose proof (best_in _ _ Eb) as Hv. apply viable_in in Hv as [Hf He]. cbn [tame].
    apply elab_func_inv in He as (c0 & Hc0 & Hcase). split.
    + intros v Hv. destruct ex as [t|].
      * apply (cast_total O v t c0); rewrite Hv; assumption.
      * exists v. unfold try_cast. rewrite Hv, ty_eqb_refl. reflexivity.
    + destruct Hcase as [(ts & Hr1 & Hr2 & _ & ->)|(Hnr & ps & c' & Hps & Hargs & _)]; [cbn; auto|].
      rewrite map_length in Hps.
      pose proof (elab_args_inv _ _ _ _ Hargs) as Hinv. rewrite map_length, (params_length _ _ _ Hps) in Hinv. specialize (Hinv eq_refl).
      assert (Hsf : forall i a p te ci, nth_error args i = Some a -> nth_error ps i = Some p -> elab env G a (Some (fst p)) = inl (te, ci) ->
         natural G te = TyIdent -> needs_parser (fst p) = false).
      { intros i a p te ci. exact (chosen_natural G name args _ ex fs d f tes ps i a p te ci Eg Eb Hnr Hps). }
      pose proof (params_length _ _ _ Hps) as Hlen. clear - IH Hinv Hsf Hlen.
      revert ps tes Hinv Hsf Hlen. induction IH as [|a args Ha _ IHargs]; intros ps tes Hinv Hsf Hlen;
        destruct ps as [|p ps]; cbn in Hlen; try discriminate; cbn [map combine] in Hinv; inversion Hinv as [|? te' ? tes' [d' Hd] Hinv']; subst; [exact I|].
      cbn [fst snd] in Hd. cbn [fold_right]. split.
      * eapply Ha; [exact Hd|]. intros Hn. rewrite (elab_target O seed first _ _ _ _ _ _ Hd eq_refl). eapply (Hsf 0); [reflexivity|reflexivity|exact Hd|exact Hn].
      * eapply IHargs; [exact Hinv'| |congruence]. intros i a' p' te2 ci H1 H2. exact (Hsf (S i) a' p' te2 ci H1 H2).
Qed.
Lemma elab_none_tame G e te c : elab env G e None = inl (te, c) -> tame te.
Proof.
  intros H. eapply elab_tame; [exact H|]. intros Hn. destruct e as [id v|id name args raw]; cbn [elab] in H.
  - rewrite cost_same in H. injection H as <- _. cbn in *. rewrite Hn. reflexivity.
  - destruct (get_func_variants env name); [|discriminate]. destruct (best _) as [[[d f] tes]|]; [|discriminate]. injection H as <- _.
    cbn in *. rewrite Hn. reflexivity.
Qed.
End Builtin.
