(** Nested calls: evaluation gives the meaning of the calls. *)
From Coq Require Import String Permutation.
From Verif Require Import Base BaseFacts Token Types TypesProofs Values Ast Env Resolve Eval SpecElab SpecScope SpecPrograms SpecCalls SpecFunctions SpecNesting
  ElabProofs ElabFacts BuiltinFacts BuiltinCasts CallFacts MoreCallFacts ResolveFacts FunctionProofs NestingProofs.
Open Scope list_scope.

Section Runs.
Context (O : oracles) (seed first : N).
Let env := new_initialized O seed first.

Definition conv (v : value) (t : ty) : value := match try_cast O v t with Ok w => w | _ => v end.
Lemma conv_ok v s t : type_of v = s -> t = s \/ t = TyTokens \/ t = TyRaw -> try_cast O v t = Ok (conv v t).
Proof.
  intros <- [->|[->| ->]]; unfold conv; [rewrite cast_same|rewrite cast_to_tokens|rewrite cast_to_raw]; reflexivity.
Qed.

Section At.
Context (G : tenv) (bs : venv).
Hypothesis Hc : ctx_ok G (rev bs).
Hypothesis Hnd : NoDup (map fst bs).

(** What an expression of type [s] and cost [k] gives, when what is wanted is in [W]. *)
Definition means (W : ty -> Prop) (e : expr) (sk : ty * N) (d : res value) : Prop :=
  gives W (elab env G e) sk /\
  (forall t te c, W t -> elab env G e (Some t) = inl (te, c) -> t = fst sk \/ t = TyTokens \/ t = TyRaw ->
    run O seed (rev bs) te = let! v := d in try_cast O v t) /\
  (forall v, d = Ok v -> type_of v = fst sk) /\
  (exists te, elab env G e None = inl (te, snd sk) /\ run O seed (rev bs) te = d /\ target_of te = fst sk).
Definition never (e : expr) : Prop :=
  (forall t, exists er, elab env G e (Some t) = inr er) /\ elab env G e None = inr (misfit e).

Lemma leaf_means W id v : means W (EValue id v) (static_type G v, 0%N) (Ok (lookup_value bs v)).
Proof.
  assert (Ht : type_of (lookup_value bs v) = static_type G v) by exact (proj2 (run_leaf_same O seed G bs v Hc Hnd)).
  split; [|split; [|split]].
  - intros t _. cbn [elab fst snd]. destruct (coercion_cost (static_type G v) t) as [c|]; [|eexists; reflexivity]. exists (TEVal v t). rewrite N.add_0_r. reflexivity.
  - intros t te c _ H Hs. cbn [elab] in H. destruct (coercion_cost (static_type G v) t) as [c'|]; [|discriminate]. injection H as <- <-.
    rewrite (leaf_run O seed G bs Hc Hnd). cbn [bind fst] in *. rewrite (conv_ok _ (static_type G v) t Ht Hs). reflexivity.
  - intros w [= <-]. exact Ht.
  - exists (TEVal v (static_type G v)). cbn [elab fst snd]. rewrite cost_same. split; [reflexivity|]. split; [|reflexivity]. apply (run_leaf_same O seed G bs v Hc Hnd).
Qed.

(** The arguments of a chosen overload. *)
Lemma args_run W (ps : list (ty * N)) : forall (args : list expr) (sk : list (ty * N)) (ds : list (res value)) c tes,
  Forall (fun p => W (fst p)) ps -> Forall2 (fun p s => fst p = s \/ fst p = TyTokens \/ fst p = TyRaw) ps (map fst sk) ->
  List.length ps = List.length args ->
  Forall2 (fun ad s => means W (fst ad) s (snd ad)) (combine args ds) sk -> List.length ds = List.length args ->
  elab_args ps (map (elab env G) args) = Some (c, tes) ->
  mapM (run O seed (rev bs)) tes = let! vs := mapM (fun d => d) ds in Ok (map (fun vp => conv (fst vp) (fst (snd vp))) (combine vs ps)).
Proof.
  induction ps as [|[t m] ps IH]; intros args sk ds c tes HW Hs Hl Hm Hd He.
  - destruct args; [|discriminate]. destruct ds; [|discriminate]. injection He as <- <-. reflexivity.
  - destruct args as [|a args]; [discriminate|]. destruct ds as [|d ds]; [discriminate|]. cbn [combine] in Hm.
    inversion Hm as [|? [s k] ? sk' (Ha & Hr & Ht & _) Hm']; subst. cbn [map fst snd] in *.
    inversion Hs as [|? ? ? ? Hs1 Hs']; subst. inversion HW as [|? ? HW1 HW']; subst. cbn [fst] in *.
    cbn [elab_args] in He. destruct (elab env G a (Some t)) as [[te c1]|] eqn:Ea; [|discriminate].
    destruct (elab_args ps (map (elab env G) args)) as [[c2 tes']|] eqn:Er; [|discriminate]. injection He as <- <-.
    cbn [mapM]. rewrite (Hr t te c1 HW1 Ea Hs1). destruct d as [v| |]; [|reflexivity|reflexivity]. cbn [bind].
    rewrite (conv_ok v s t (Ht v eq_refl) Hs1). cbn [bind].
    rewrite (IH args sk' ds c2 tes' HW' Hs' (f_equal pred Hl) Hm' (f_equal pred Hd) Er).
    destruct (mapM (fun d => d) ds); reflexivity.
Qed.

Definition arg_wanted (name : str) (t : ty) : Prop := if reader name then t = TyTokens else True.

Lemma params_wanted name fs n : choice name fs (fun ss => result_type name ss) \/ (reader name = true -> Forall (fun f => f_arg_types f = [TyTokens]) fs) ->
  Forall (fun g => forall ps, params g n = Some ps -> Forall (fun p => arg_wanted name (fst p)) ps) fs.
Proof.
  intros H. assert (Hr : reader name = true -> Forall (fun f => f_arg_types f = [TyTokens]) fs) by (destruct H as [(_ & _ & _ & H)|H]; exact H).
  apply Forall_forall. intros g Hg ps Hp. unfold arg_wanted. destruct (reader name) eqn:E.
  - specialize (Hr eq_refl). rewrite Forall_forall in Hr. specialize (Hr g Hg). unfold params, variadic_arg_type, non_variadic_arg_types, num_args in Hp. rewrite Hr in Hp. cbn in Hp.
    destruct n as [|[|n]]; try discriminate. injection Hp as <-. constructor; [reflexivity|constructor].
  - apply Forall_forall. intros; exact I.
Qed.

(** A call whose arguments have meanings. *)
Lemma call_elab name id args raw fs r sk ds :
  get_func_variants env name = Some fs -> choice name fs r -> (raw = None \/ source_function name = false) ->
  Forall2 (fun ad s => means (arg_wanted name) (fst ad) s (snd ad)) (combine args ds) sk -> List.length ds = List.length args -> ok_for name sk ->
  match r (map fst sk) with
  | None => (forall ex, elab env G (ECall id name args raw) ex = inr (SignatureError name))
  | Some o => exists f ps, In f fs /\ f_out_type f = o /\ params f (List.length sk) = Some ps /\
      Forall2 (fun p s => fst p = s \/ fst p = TyTokens \/ fst p = TyRaw) ps (map fst sk) /\
      (forall ex, match ex with None => True | Some t => wanted_of name (map fst sk) t end ->
         match out_cost o ex with
         | None => elab env G (ECall id name args raw) ex = inr (SignatureError name)
         | Some c => exists tes, elab env G (ECall id name args raw) ex = inl (TECall f tes (match ex with Some t => t | None => o end), (c + call_cost name sk)%N) /\
             mapM (run O seed (rev bs)) tes = let! vs := mapM (fun d => d) ds in Ok (map (fun vp => conv (fst vp) (fst (snd vp))) (combine vs ps))
         end) /\
      (forall sk', map fst sk' = map fst sk -> ok_for name sk' -> wins fs sk' None f (call_cost name sk'))
  end.
Proof.
  intros Hg (Hch & Hns & _ & Hrd) Hraw Hm Hl Hok.
  assert (Hx : Forall2 (gives (arg_wanted name)) (map (elab env G) args) sk).
  { clear - Hm Hl. revert ds sk Hm Hl. induction args as [|a args IH]; intros [|d ds] sk Hm Hl; try discriminate; inversion Hm as [|? ? ? ? H1 H2]; subst; cbn [map]; constructor; [exact (proj1 H1)|eapply IH; [exact H2|cbn in Hl; congruence]]. }
  pose proof (params_wanted name fs (List.length (map (elab env G) args)) (or_intror Hrd)) as HW.
  assert (Hr : option_map snd raw = None \/ Forall (fun g => f_arg_types g <> [TyRaw]) fs) by (destruct Hraw as [->|Hraw]; [left; reflexivity|right; exact (Hns Hraw)]).
  specialize (Hch (map fst sk)). destruct (r (map fst sk)) as [o|].
  - destruct Hch as (f & ps & Hf & Ho & Hp & Hs & Hch). rewrite map_length in Hp. exists f, ps. split; [exact Hf|split; [exact Ho|split; [exact Hp|split; [exact Hs|]]]].
    split; [|intros sk' H1 H2; exact (proj1 (Hch sk' H1 H2))].
    specialize (Hch sk eq_refl Hok). destruct Hch as [Hn Hsome]. intros ex Hex.
    assert (Hw : match out_cost o ex with Some c => wins fs sk ex f (c + call_cost name sk) | None => Forall (fun g => cost_func g sk ex = None) fs end).
    { destruct ex as [t|]; [exact (Hsome t Hex)|exact Hn]. }
    destruct (out_cost o ex) as [c|].
    + destruct (wins_best _ fs _ sk (option_map snd raw) ex f _ Hr Hx HW Hf Hw) as (tes & Hb & He). exists tes. split.
      * cbn [elab]. rewrite Hg, Hb, Ho. reflexivity.
      * apply elab_func_inv in He as (c0 & _ & He). destruct He as [(ts & Hrt & Hrr & _)|(_ & ps' & c' & Hps' & Hargs & _)].
        { exfalso. destruct Hr as [Hr|Hr]; [congruence|]. rewrite Forall_forall in Hr. exact (Hr f Hf Hrt). }
        rewrite map_length in Hps'. assert (Hlen : List.length sk = List.length args) by (rewrite <- (gives_length _ _ _ Hx), map_length; reflexivity). rewrite Hlen, Hps' in Hp. injection Hp as ->.
        eapply (args_run (arg_wanted name) ps args sk ds); [|exact Hs| |exact Hm|exact Hl|exact Hargs].
        -- rewrite Forall_forall in HW. apply (HW f Hf). rewrite map_length. exact Hps'.
        -- exact (params_length _ _ _ Hps').
    + cbn [elab]. rewrite Hg, (loses_all _ fs _ sk (option_map snd raw) ex Hr Hx HW Hw). reflexivity.
  - intros ex. cbn [elab]. rewrite Hg, (loses_all _ fs _ sk (option_map snd raw) ex Hr Hx HW (Hch sk ex eq_refl)). reflexivity.
Qed.
End At.

Lemma wins_unique fs sk ex f g c d : In f fs -> In g fs -> wins fs sk ex f c -> wins fs sk ex g d -> f = g.
Proof.
  intros Hf Hg [H1 H2] [H3 H4]. rewrite Forall_forall in H2, H4. destruct (H2 g Hg) as [->|Ha]; [reflexivity|]. destruct (H4 f Hf) as [->|Hb]; [reflexivity|].
  rewrite H3 in Ha. rewrite H1 in Hb. unfold better in Ha, Hb. exfalso.
  destruct (is_variadic f), (is_variadic g); intuition (try discriminate; try lia).
Qed.

Lemma ok_free name vs : ok_for name (map (fun v => (type_of v, 0%N)) vs).
Proof. unfold ok_for. destruct (str_eqb name _); [|exact I]. destruct vs as [|v vs]; cbn; [exact I|]. intros _. right. lia. Qed.

Lemma mapM_Oks {A} (l : list A) : mapM (fun d => d) (map Ok l) = Ok l.
Proof. induction l; [reflexivity|]. cbn [map mapM bind]. rewrite IHl. reflexivity. Qed.

(** What a chosen overload does to the values of its arguments. *)
Lemma impl_meaning name (raw : option (N * list tt)) fs r f ps o (vs : list value) :
  get_func_variants env name = Some fs -> choice name fs r -> (raw = None \/ source_function name = false) -> r (map type_of vs) = Some o ->
  In f fs -> params f (List.length vs) = Some ps ->
  (forall sk', map fst sk' = map type_of vs -> ok_for name sk' -> wins fs sk' None f (call_cost name sk')) ->
  f_impl f seed (map (fun vp => conv (fst vp) (fst (snd vp))) (combine vs ps)) = call_meaning O seed name (option_map snd raw) vs.
Proof.
  intros Hg Hch Hraw Hr Hf Hp Hw.
  set (leaves := map (fun v => (0%N, v)) vs). set (sk := map (fun v => (type_of v, 0%N)) vs).
  assert (Hfst : map fst sk = map type_of vs) by (unfold sk; rewrite map_map; apply map_ext; reflexivity).
  assert (Hc0 : ctx_ok [] (rev [])) by constructor. assert (Hnd0 : NoDup (map fst (@nil (str * value)))) by constructor.
  assert (Hm : Forall2 (fun ad s => means [] [] (arg_wanted name) (fst ad) s (snd ad)) (combine (plain leaves) (map Ok vs)) sk).
  { unfold leaves, sk, plain. rewrite map_map. clear - Hc0 Hnd0. induction vs as [|v vs IH]; cbn [map combine]; [constructor|]. constructor; [|exact IH]. cbn [fst snd].
    pose proof (leaf_means [] [] Hc0 Hnd0 (arg_wanted name) 0%N v) as H. replace (static_type [] v) with (type_of v) in H by (destruct v; reflexivity).
    replace (lookup_value [] v) with v in H by (destruct v; reflexivity). exact H. }
  assert (Hl : List.length (map (@Ok value) vs) = List.length (plain leaves)) by (unfold plain, leaves; rewrite !map_length; reflexivity).
  pose proof (call_elab [] [] name 0%N (plain leaves) raw fs r sk (map Ok vs) Hg Hch Hraw Hm Hl (ok_free name vs)) as H. rewrite Hfst, Hr in H.
  destruct H as (g & qs & Hgf & Hgo & Hgp & _ & Hrun & Hgw).
  assert (f = g) as <- by (eapply (wins_unique fs sk None); [exact Hf|exact Hgf|apply Hw; [exact Hfst|apply ok_free]|apply Hgw; [exact Hfst|apply ok_free]]).
  unfold sk in Hgp. rewrite map_length, Hp in Hgp. injection Hgp as <-.
  specialize (Hrun None I). cbn [out_cost] in Hrun. destruct Hrun as (tes & He & Hrun).
  pose proof (function_run O seed first [] [] Hc0 Hnd0 0%N name leaves raw) as Hfr. unfold outcome_of in Hfr. fold env in Hfr. rewrite He in Hfr.
  assert (values [] leaves = vs) as Hv by (unfold values, leaves; rewrite map_map; cbn [snd]; rewrite <- (map_id vs) at 2; apply map_ext; intros []; reflexivity).
  rewrite Hv in Hfr. rewrite <- Hfr. cbn [run]. rewrite Hrun, mapM_Oks. cbn [bind].
  destruct (f_impl f seed _) as [w| |] eqn:Ew; [|reflexivity|reflexivity]. cbn [bind].
  rewrite (cast_own O w o); [reflexivity|]. rewrite <- Hgo. eapply builtin_result; eassumption.
Qed.

Section Nested.
Context (G : tenv) (bs : venv).
Hypothesis Hc : ctx_ok G (rev bs).
Hypothesis Hnd : NoDup (map fst bs).

Lemma all_some_Forall2 {A B} (f : A -> option B) l : forall r, all_some (map f l) = Some r -> Forall2 (fun a b => f a = Some b) l r.
Proof.
  induction l as [|a l IH]; intros r H; cbn [map all_some] in H; [injection H as <-; constructor|].
  destruct (f a) as [b|] eqn:E; [|discriminate]. destruct (all_some (map f l)) as [r'|]; [|discriminate]. injection H as <-. constructor; auto.
Qed.
Lemma all_some_none {A B} (f : A -> option B) l : all_some (map f l) = None -> exists a, In a l /\ f a = None.
Proof.
  induction l as [|a l IH]; intros H; cbn [map all_some] in H; [discriminate|].
  destruct (f a) as [b|] eqn:E; [|exists a; split; [left; reflexivity|exact E]]. destruct (all_some (map f l)) as [r'|]; [discriminate|].
  destruct IH as (a' & H1 & H2); [reflexivity|]. exists a'. split; [right; exact H1|exact H2].
Qed.

Definition expr_wanted (e : expr) (t : ty) : Prop := if hash_of_string G e then hash_wanted [TyLitStr] t else True.

Lemma means_weaken (W W' : ty -> Prop) e sk d : (forall t, W' t -> W t) -> means G bs W e sk d -> means G bs W' e sk d.
Proof.
  intros H (H1 & H2 & H3 & H4). split; [|split; [|split; [exact H3|exact H4]]].
  - intros t Ht. exact (H1 t (H t Ht)).
  - intros t te c Ht. exact (H2 t te c (H t Ht)).
Qed.

Lemma unknown_result name args raw id r fs ex : get_func_variants env name = Some fs -> choice name fs r -> (raw = None \/ source_function name = false) ->
  (exists a, In a args /\ never G a) -> elab env G (ECall id name args raw) ex = inr (SignatureError name).
Proof.
  intros Hg (_ & Hns & _) Hraw (a & Ha & Hn & _). cbn [elab]. rewrite Hg.
  destruct (best (viable fs (map (elab env G) args) (option_map snd raw) ex)) as [[[c f] tes]|] eqn:Eb; [|reflexivity]. exfalso.
  pose proof (best_in _ _ Eb) as Hin. apply viable_in in Hin as [Hf He].
  apply elab_func_inv in He as (c0 & _ & He). destruct He as [(ts & Hrt & Hrr & _)|(_ & ps & c' & Hps & Hargs & _)].
  { destruct Hraw as [->|Hraw]; [discriminate|]. specialize (Hns Hraw). rewrite Forall_forall in Hns. exact (Hns f Hf Hrt). }
  pose proof (params_length _ _ _ Hps) as Hlen. rewrite map_length in Hlen. clear - Hn Ha Hargs Hlen. revert ps c' tes Hargs Hlen.
  induction args as [|b args IH]; intros [|[t m] ps] c' tes Hargs Hlen; try discriminate; [contradiction|]. cbn [map elab_args] in Hargs.
  destruct Ha as [->|Ha].
  - destruct (Hn t) as [er ->] in Hargs. discriminate.
  - destruct (elab env G b (Some t)) as [[te d]|]; [|discriminate]. destruct (elab_args ps (map (elab env G) args)) as [[c2 tes']|] eqn:Er; [|discriminate].
    exact (IH Ha ps c2 tes' Er (f_equal pred Hlen)).
Qed.

Lemma tokens_conv o : exists c, coercion_cost o TyTokens = Some c.
Proof. destruct o; eexists; reflexivity. Qed.

Theorem nested_means e : independent G e = true ->
  match synth G e with
  | Some sk => means G bs (expr_wanted e) e sk (denote O seed bs e)
  | None => never G e
  end.
Proof.
  induction e as [id v|id name args raw IH] using expr_ind'; intros Hi.
  { cbn [synth denote]. apply leaf_means; assumption. }
  cbn [independent] in Hi. cbn [synth denote]. pose proof (table_choice O seed first name) as Ht. fold env in Ht.
  destruct (reads_source name raw) eqn:Ers.
  - destruct raw as [[rid ts]|]; [|discriminate]. unfold reads_source in Ers.
    assert (Hsf : source_function name = true) by exact Ers.
    assert (Hnh : expr_wanted (ECall id name args (Some (rid, ts))) = fun _ => True).
    { unfold expr_wanted, hash_of_string. destruct args as [|a [|]]; try reflexivity. replace (str_eqb name (txt "hash")) with false; [reflexivity|].
      apply orb_prop in Ers as [E|E]; apply str_eqb_eq in E; subst name; reflexivity. }
    rewrite Hnh.
    destruct (assoc_str name result_types) as [r|] eqn:Ea.
    2:{ exfalso. apply orb_prop in Ers as [E|E]; apply str_eqb_eq in E; subst name; discriminate. }
    destruct Ht as (fs & Hg & (_ & _ & Hsrc & _)). destruct (Hsrc Hsf) as (f & -> & Hat & Hout).
    assert (He : forall ex, elab env G (ECall id name args (Some (rid, ts))) ex =
      match out_cost (f_out_type f) ex with Some c => inl (TECall f [TEVal (VRaw ts) TyRaw] (match ex with Some t => t | None => f_out_type f end), c) | None => inr (SignatureError name) end).
    { intros ex. cbn [elab]. rewrite Hg. cbn [viable option_map snd]. unfold elab_func. rewrite Hat. fold (out_cost (f_out_type f) ex). destruct (out_cost (f_out_type f) ex); reflexivity. }
    assert (Hd : f_impl f seed [VRaw ts] = call_meaning O seed name (Some ts) []).
    { assert (Hc0 : ctx_ok [] (rev [])) by constructor. assert (Hnd0 : NoDup (map fst (@nil (str * value)))) by constructor.
      pose proof (function_run O seed first [] [] Hc0 Hnd0 0%N name [] (Some (rid, ts))) as Hfr. unfold outcome_of in Hfr. fold env in Hfr. cbn [elab plain map] in Hfr.
      rewrite Hg in Hfr. cbn [viable option_map snd] in Hfr. unfold elab_func in Hfr. rewrite Hat in Hfr. cbn [best] in Hfr. cbn [values map] in Hfr. rewrite <- Hfr.
      cbn [run mapM bind rev assoc_str]. rewrite cast_to_raw. cbn [coerced bind to_tokens].
      destruct (f_impl f seed [VRaw ts]) as [w| |] eqn:Ew; [|reflexivity|reflexivity]. cbn [bind]. rewrite (cast_own O w (f_out_type f)); [reflexivity|].
      eapply builtin_result; [exact Hg|left; reflexivity|exact Ew]. }
    cbn [option_map snd]. rewrite <- Hout. split; [|split; [|split]]; cbn [fst snd].
    + intros t _. rewrite (He (Some t)). cbn [out_cost fst snd]. destruct (coercion_cost (f_out_type f) t) as [c|]; [rewrite N.add_0_r|]; eexists; reflexivity.
    + intros t te c _ Hel Hs. rewrite (He (Some t)) in Hel. destruct (out_cost _ _); [|discriminate]. injection Hel as <- <-.
      cbn [run mapM bind]. rewrite cast_to_raw. cbn [coerced bind to_tokens]. rewrite Hd. reflexivity.
    + intros v Hv. rewrite <- Hd in Hv. eapply builtin_result; [exact Hg|left; reflexivity|exact Hv].
    + exists (TECall f [TEVal (VRaw ts) TyRaw] (f_out_type f)). rewrite (He None). split; [reflexivity|]. split; [|reflexivity]. cbn [run mapM bind]. rewrite cast_to_raw. cbn [coerced bind to_tokens]. rewrite Hd.
      rewrite <- Hd. destruct (f_impl f seed [VRaw ts]) as [w| |] eqn:Ew; [|reflexivity|reflexivity]. cbn [bind]. apply cast_own. eapply builtin_result; [exact Hg|left; reflexivity|exact Ew].
  - cbn [orb] in Hi. apply andb_prop in Hi as [Hi Hok]. apply andb_prop in Hi as [Hi Hh].
    assert (Hraw : raw = None \/ source_function name = false) by (destruct raw as [x|]; [right; exact Ers|left; reflexivity]).
    destruct (assoc_str name result_types) as [r|] eqn:Ea.
    2:{ replace (match all_some (map (synth G) args) with Some _ => _ | None => None end) with (@None (ty * N)).
        - split; [intros t; eexists; cbn [elab]; rewrite Ht; reflexivity|]. cbn [elab misfit]. rewrite Ht, Ea. reflexivity.
        - destruct (all_some _); [|reflexivity]. unfold result_type. rewrite Ea. reflexivity. }
    destruct Ht as (fs & Hg & Hch).
    assert (Hmis : misfit (ECall id name args raw) = SignatureError name) by (cbn [misfit]; rewrite Ea; reflexivity).
    rewrite Forall_forall in IH. rewrite forallb_forall in Hi.
    destruct (all_some (map (synth G) args)) as [sk|] eqn:Es.
    2:{ apply all_some_none in Es as (a & Ha & Hn). pose proof (IH a Ha (Hi a Ha)) as H. rewrite Hn in H.
        split; [intros t; exists (SignatureError name)|rewrite Hmis]; (eapply unknown_result; [exact Hg|exact Hch|exact Hraw|exists a; split; assumption]). }
    assert (Hm : Forall2 (fun ad s => means G bs (arg_wanted name) (fst ad) s (snd ad)) (combine args (map (denote O seed bs) args)) sk).
    { apply all_some_Forall2 in Es. clear - Es IH Hi Hh. assert (Hh' : forall a, In a args -> forall t, arg_wanted name t -> expr_wanted a t).
      { intros a Ha t Ht. unfold arg_wanted in Ht. unfold expr_wanted. destruct (hash_of_string G a) eqn:E; [|exact I].
        destruct (reader name); [subst t; repeat split; discriminate|]. cbn [orb] in Hh. rewrite forallb_forall in Hh. specialize (Hh a Ha). rewrite E in Hh. discriminate. }
      clear Hh. induction Es as [|a s args sk Hs Es IHs]; cbn [map combine]; [constructor|]. constructor.
      - cbn [fst snd]. pose proof (IH a (or_introl eq_refl) (Hi a (or_introl eq_refl))) as H. rewrite Hs in H. exact (means_weaken _ _ _ _ _ (Hh' a (or_introl eq_refl)) H).
      - apply IHs; intros; [apply IH|apply Hi|eapply Hh']; try (right; eassumption); eassumption. }
    assert (Hokf : ok_for name sk).
    { unfold ok_for. destruct (str_eqb name (txt "concat")) eqn:En; [|exact I]. cbn [negb orb] in Hok. unfold head_affordable in Hok. rewrite Es in Hok.
      destruct sk as [|[s k] sk]; [exact I|]. cbn [concat_ok]. intros Hall. change (map fst ((s, k) :: sk)) with (s :: map fst sk) in Hall. rewrite Hall in Hok. cbn [negb orb] in Hok.
      destruct sk; [left; reflexivity|right; apply N.leb_le; exact Hok]. }
    pose proof (call_elab G bs name id args raw fs r sk (map (denote O seed bs) args) Hg Hch Hraw Hm ltac:(rewrite map_length; reflexivity) Hokf) as H.
    unfold result_type. rewrite Ea. destruct (r (map fst sk)) as [o|] eqn:Er; cbn [option_map].
    2:{ split; [intros t; exists (SignatureError name); apply H|rewrite Hmis; apply H]. }
    destruct H as (f & ps & Hf & Ho & Hp & Hs & Hrun & Hw).
    assert (Hmap : mapM (fun d => d) (map (denote O seed bs) args) = mapM (denote O seed bs) args) by (clear; induction args as [|a args IH]; [reflexivity|cbn [map mapM]; rewrite IH; reflexivity]).
    rewrite Hmap in Hrun.
    assert (Hty : forall vs, mapM (denote O seed bs) args = Ok vs -> map type_of vs = map fst sk).
    { clear - Hm. revert sk Hm. induction args as [|a args IH]; intros sk Hm vs Hv; cbn [map combine mapM] in *.
      - injection Hv as <-. inversion Hm. reflexivity.
      - inversion Hm as [|? s ? sk' (_ & _ & H1 & _) Hm']; subst. cbn [fst snd] in *. destruct (denote O seed bs a) as [v| |]; try discriminate. cbn [bind] in Hv.
        destruct (mapM (denote O seed bs) args) as [vs'| |]; try discriminate. injection Hv as <-. cbn [map]. rewrite (H1 v eq_refl), (IH sk' Hm' vs' eq_refl). reflexivity. }
    assert (Hd : (let! vs := (let! vs := mapM (denote O seed bs) args in Ok (map (fun vp => conv (fst vp) (fst (snd vp))) (combine vs ps))) in f_impl f seed vs) =
                 let! vs := mapM (denote O seed bs) args in call_meaning O seed name (option_map snd raw) vs).
    { destruct (mapM (denote O seed bs) args) as [vs| |]; [|reflexivity|reflexivity]. cbn [bind]. specialize (Hty vs eq_refl).
      eapply impl_meaning; [exact Hg|exact Hch|exact Hraw|rewrite Hty; exact Er|exact Hf| |rewrite Hty; exact Hw].
      rewrite <- (map_length type_of vs), Hty, map_length. exact Hp. }
    assert (Hout : forall v, (let! vs := mapM (denote O seed bs) args in call_meaning O seed name (option_map snd raw) vs) = Ok v -> type_of v = o).
    { intros v Hv. rewrite <- Hd in Hv. destruct (mapM (denote O seed bs) args) as [vs| |]; try discriminate. cbn [bind] in Hv. rewrite <- Ho. eapply builtin_result; eassumption. }
    assert (Hwant : forall t, expr_wanted (ECall id name args raw) t -> wanted_of name (map fst sk) t).
    { intros t Ht. unfold expr_wanted in Ht. unfold wanted_of. destruct (str_eqb name (txt "hash")) eqn:En; [|exact I]. unfold hash_wanted.
      destruct sk as [|[s k] [|]]; cbn [map fst]; try exact I; destruct s; try exact I. 
      apply all_some_Forall2 in Es. inversion Es as [|a ? ? ? Ha Es']; subst. inversion Es'; subst. cbn [hash_of_string] in Ht. rewrite En, Ha in Ht. exact Ht.
      all: exact I. }
    split; [|split; [|split]]; cbn [fst snd].
    + intros t Ht. specialize (Hrun (Some t) (Hwant t Ht)). cbn [out_cost fst snd] in *. destruct (coercion_cost o t) as [c|]; [|eexists; exact Hrun]. destruct Hrun as (tes & -> & _). eexists. reflexivity.
    + intros t te c Ht Hel _. specialize (Hrun (Some t) (Hwant t Ht)). cbn [out_cost] in Hrun. destruct (coercion_cost o t) as [c'|]; [|congruence].
      destruct Hrun as (tes & He & Hrun). rewrite He in Hel. injection Hel as <- <-. cbn [run]. rewrite Hrun, <- Hd.
      destruct (mapM (denote O seed bs) args); reflexivity.
    + exact Hout.
    + specialize (Hrun None I). cbn [out_cost] in Hrun. destruct Hrun as (tes & He & Hrun). exists (TECall f tes o). split; [exact He|]. split; [|reflexivity]. cbn [run]. rewrite Hrun.
      rewrite <- Hd. destruct (mapM (denote O seed bs) args) as [vs| |]; [|reflexivity|reflexivity]. cbn [bind] in *.
      destruct (f_impl f seed _) as [w| |] eqn:Ew; [|reflexivity|reflexivity]. cbn [bind]. apply cast_own. rewrite <- Ho. eapply builtin_result; eassumption.
Qed.
End Nested.
End Runs.

(** ** Definitions *)
Section Items.
Context (O : oracles) (seed first : N).
Let env := new_initialized O seed first.

(** Some value of a type. *)
Definition some_value (t : ty) : value :=
  match t with
  | TyIdent | TyVariadic _ => VIdent [] | TyPath => VPath [] | TyType => VType [] | TyExpr => VExpr [] | TyLitStr => VLitStr [] []
  | TyLitInt => VLitInt [] [] | TyTokens => VTokens [] | TyRaw => VRaw []
  end.
Definition inhabited (G : tenv) : Prop := Forall (fun g => is_variadic_ty (snd g) = false) G.
Lemma some_value_type t : is_variadic_ty t = false -> type_of (some_value t) = t.
Proof. destruct t; intros H; try reflexivity. discriminate. Qed.
Lemma some_ctx G : inhabited G -> ctx_ok G (map (fun g => (fst g, some_value (snd g))) G).
Proof. induction 1 as [|[x t] G H _ IH]; cbn [map]; constructor; [split; [reflexivity|apply some_value_type; exact H]|exact IH]. Qed.

Lemma inhabited_value G v : inhabited G -> is_variadic_ty (static_type G v) = false.
Proof.
  intros H. destruct v as [x| | | | | | |]; try reflexivity. cbn [static_type]. induction H as [|[y t] G Ht _ IH]; [reflexivity|]. cbn [assoc_str]. destruct (str_eqb x y); [exact Ht|exact IH].
Qed.
Lemma result_plain name ss o : result_type name ss = Some o -> is_variadic_ty o = false.
Proof.
  unfold result_type. destruct (assoc_str name result_types) as [f|] eqn:E; [|discriminate]. unfold result_types in E. cbn [assoc_str] in E.
  repeat match type of E with
      | (if str_eqb name ?x then _ else _) = _ => destruct (str_eqb name x); [injection E as <-|]
      end; [..|discriminate].
  9: { destruct ss as [|s ss]; [discriminate|]. unfold concat_type.
       destruct (forallb (ty_eqb TyIdent) (s :: ss)); [intros [= <-]; reflexivity|]. destruct (forallb (ty_eqb TyLitStr) (s :: ss)); [intros [= <-]; reflexivity|].
       destruct (forallb (ty_eqb TyLitInt) (s :: ss)); [intros [= <-]; reflexivity|]. destruct (ty_eqb TyIdent s); intros [= <-]; reflexivity. }
  all: destruct ss as [|s [|]]; try discriminate; cbn [one same_text]; destruct s; intros [= <-]; reflexivity.
Qed.
Lemma synth_plain G e t k : inhabited G -> synth G e = Some (t, k) -> is_variadic_ty t = false.
Proof.
  intros HG. destruct e as [id v|id name args raw]; cbn [synth].
  - intros [= <- <-]. apply inhabited_value. exact HG.
  - destruct (reads_source name raw); [destruct (str_eqb _ _); intros [= <- <-]; reflexivity|].
    destruct (all_some _) as [sk|]; [|discriminate]. destruct (result_type name (map fst sk)) as [o|] eqn:E; [|discriminate]. intros [= <- <-]. exact (result_plain _ _ _ E).
Qed.

(** Elaboration does not need values. *)
Lemma nested_elab G e : inhabited G -> NoDup (map fst G) -> independent G e = true ->
  match synth G e with
  | Some (t, k) => exists te, elab env G e None = inl (te, k) /\ target_of te = t
  | None => elab env G e None = inr (misfit e)
  end.
Proof.
  intros HG Hnd Hi. set (bs := rev (map (fun g => (fst g, some_value (snd g))) G)).
  assert (Hc : ctx_ok G (rev bs)) by (unfold bs; rewrite rev_involutive; exact (some_ctx G HG)).
  assert (Hn : NoDup (map fst bs)) by (unfold bs; rewrite map_rev, map_map; apply NoDup_rev; exact Hnd).
  pose proof (nested_means O seed first G bs Hc Hn e Hi) as H. destruct (synth G e) as [[t k]|]; [|exact (proj2 H)].
  destruct H as (_ & _ & _ & te & H1 & _ & H2). exists te. split; assumption.
Qed.

Lemma nested_items items : forall G bs, ctx_ok G (rev bs) -> NoDup (map fst bs) -> inhabited G -> independent_items G items = true ->
  (let! tis := elab_items env G items in let! r := run_items O seed (rev bs) tis in Ok (bs ++ r)) =
  match first_misfit G items with Some er => Err er | None => denote_items O seed bs items end.
Proof.
  (* elaboration *)
  assert (Hel : forall items G, NoDup (map fst G) -> inhabited G -> independent_items G items = true ->
    match first_misfit G items with
    | Some er => elab_items env G items = Err er
    | None => exists tis, elab_items env G items = Ok tis
    end).
  { clear items. induction items as [|[a e] items IH]; intros G Hnd HG Hi; cbn [first_misfit elab_items independent_items] in *; [eexists; reflexivity|].
    apply andb_prop in Hi as [Hi Hr]. pose proof (nested_elab G e HG Hnd Hi) as H. destruct (synth G e) as [[t k]|] eqn:Es; [|rewrite H; reflexivity].
    destruct H as (te & -> & Ht). destruct (assoc_str a G) eqn:Ea; [reflexivity|]. rewrite Ht.
    assert (Hn' : NoDup (map fst ((a, t) :: G))) by (cbn [map fst]; constructor; [apply assoc_str_None; exact Ea|exact Hnd]).
    assert (HG' : inhabited ((a, t) :: G)) by (constructor; [exact (synth_plain G e t k HG Es)|exact HG]).
    specialize (IH ((a, t) :: G) Hn' HG' Hr). destruct (first_misfit ((a, t) :: G) items); [rewrite IH; reflexivity|].
    destruct IH as [tis ->]. eexists. reflexivity. }
  (* evaluation *)
  assert (Hrun : forall items G bs tis, ctx_ok G (rev bs) -> NoDup (map fst bs) -> inhabited G -> independent_items G items = true -> elab_items env G items = Ok tis ->
    (let! r := run_items O seed (rev bs) tis in Ok (bs ++ r)) = denote_items O seed bs items).
  { clear items. induction items as [|[a e] items IH]; intros G bs tis Hc Hn HG Hi He; cbn [elab_items independent_items denote_items] in *.
    - injection He as <-. cbn [run_items bind]. rewrite app_nil_r. reflexivity.
    - apply andb_prop in Hi as [Hi Hr]. pose proof (nested_means O seed first G bs Hc Hn e Hi) as H. fold env in H. destruct (synth G e) as [[t k]|] eqn:Es.
      2:{ destruct H as [_ H]. fold env in H. rewrite H in He. discriminate. }
      destruct H as (_ & _ & Hty & te & H1 & H2 & H3). fold env in H1. cbn [fst snd] in *. rewrite H1 in He.
      destruct (assoc_str a G) eqn:Ea; [discriminate|]. rewrite H3 in He. apply bind_Ok in He as (tis' & He & [= <-]). cbn [run_items]. rewrite H2.
      destruct (denote O seed bs e) as [v| |]; [|reflexivity|reflexivity]. cbn [bind].
      assert (Ha : ~ In a (map fst bs)).
      { apply assoc_str_None in Ea. intros Hin. apply Ea. clear - Hc Hin. apply in_rev in Hin. rewrite <- map_rev in Hin. induction Hc as [|? ? ? ? [Hf _] _ IHc]; [exact Hin|]. cbn [map In] in *. rewrite Hf. destruct Hin; auto. }
      assert (Hc' : ctx_ok ((a, t) :: G) (rev (bs ++ [(a, v)]))) by (rewrite rev_app_distr; cbn [rev app]; constructor; [split; [reflexivity|exact (Hty v eq_refl)]|exact Hc]).
      assert (Hn' : NoDup (map fst (bs ++ [(a, v)]))).
      { rewrite map_app. cbn [map fst]. eapply Permutation.Permutation_NoDup; [apply Permutation.Permutation_cons_append|]. constructor; assumption. }
      assert (HG' : inhabited ((a, t) :: G)) by (constructor; [exact (synth_plain G e t k HG Es)|exact HG]).
      specialize (IH ((a, t) :: G) (bs ++ [(a, v)]) tis' Hc' Hn' HG' Hr He). rewrite <- IH. rewrite rev_app_distr. cbn [rev app]. unfold alias, venv in *.
      destruct (run_items O seed ((a, v) :: rev bs) tis') as [r| |]; [|reflexivity|reflexivity]. cbn [bind]. rewrite <- app_assoc. reflexivity. }
  intros G bs Hc Hn HG Hi.
  assert (HnG : NoDup (map fst G)).
  { replace (map fst G) with (map fst (rev bs)); [rewrite map_rev; apply NoDup_rev; exact Hn|]. clear - Hc. induction Hc as [|? ? ? ? [Hf _] _ IHc]; [reflexivity|]. cbn [map]. congruence. }
  pose proof (Hel items G HnG HG Hi) as H. destruct (first_misfit G items) as [er|]; [rewrite H; reflexivity|]. destruct H as [tis H]. rewrite H. cbn [bind].
  exact (Hrun items G bs tis Hc Hn HG Hi H).
Qed.

(** ** C70 *)
Theorem definitions_mean spec : NoDup (item_ids (spec_items spec)) -> independent_items [] (spec_items spec) = true ->
  make_substitutions O env spec = match first_misfit [] (spec_items spec) with Some er => Err er | None => denote_items O seed [] (spec_items spec) end.
Proof.
  intros Hnd Hi. rewrite make_substitutions_spec by exact Hnd. unfold bindings. change (e_seed env) with seed.
  rewrite <- (nested_items (spec_items spec) [] [] (Forall2_nil _) (NoDup_nil _) (Forall_nil _) Hi). cbn [rev app].
  destruct (elab_items env [] (spec_items spec)) as [tis| |]; [|reflexivity|reflexivity]. cbn [bind]. destruct (run_items O seed [] tis); reflexivity.
Qed.
End Items.
