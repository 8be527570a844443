(** Calls of every built-in function on plain values. *)
From Coq Require Import String.
From Verif Require Import Base BaseFacts Token Types TypesProofs Values Ast Env Resolve Eval SpecElab SpecScope SpecPrograms SpecCalls SpecFunctions
  ElabProofs ElabFacts BuiltinFacts CallFacts MoreCallFacts ResolveFacts.
Open Scope list_scope.

Section Functions.
Context (O : oracles) (seed first : N).
Let env := new_initialized O seed first.
Context (G : tenv) (bs : venv).
Hypothesis Hc : ctx_ok G (rev bs).
Hypothesis Hnd : NoDup (map fst bs).

Definition outcome_of (id : N) (name : str) (leaves : list (N * value)) (raw : option (N * list tt)) : res value :=
  match elab env G (ECall id name (plain leaves) raw) None with
  | inr er => Err er
  | inl (te, _) => run O seed (rev bs) te
  end.

(** A wrong number of arguments for overloads of one parameter. *)
Lemma elab_func_arity name k t out im (args : list elaborator) raw : is_variadic_ty t = false -> (t <> TyRaw \/ raw = None) ->
  List.length args <> 1 -> elab_func (mkf name k ([t], out, im)) args raw None = None.
Proof.
  intros Hv Hr Hl. unfold elab_func. cbn [mkf f_arg_types fst snd].
  replace (params (mkf name k ([t], out, im)) (List.length args)) with (@None (list (ty * N))).
  - destruct t; try reflexivity. destruct raw; [destruct Hr; congruence|reflexivity].
  - unfold params, variadic_arg_type, non_variadic_arg_types, num_args. cbn. rewrite Hv. destruct args as [|a [|b args]]; try reflexivity. destruct (Hl eq_refl).
Qed.

Definition one_param (r : list ty * ty * (N -> list value -> res value)) : Prop :=
  exists t out im, r = ([t], out, im) /\ is_variadic_ty t = false /\ t <> TyRaw.

Lemma viable_arity name rows (args : list elaborator) raw : Forall one_param rows -> List.length args <> 1 ->
  forall k, viable (number_variants name k rows) args raw None = [].
Proof.
  intros H Hl. induction H as [|r rows (t & out & im & -> & Hv & Hr) _ IH]; intros k; [reflexivity|].
  cbn [number_variants viable]. rewrite IH. pose proof (elab_func_arity name k t out im args raw Hv (or_introl Hr) Hl) as E.
  unfold mkf in E. cbn [fst snd] in E. rewrite E. reflexivity.
Qed.

(** One argument. *)
Fixpoint options (name : str) (k : N) (v : value) (rows : list (list ty * ty * (N -> list value -> res value))) : list (N * func * list texpr) :=
  match rows with
  | [] => []
  | r :: rows' =>
      match fst (fst r) with
      | t :: _ => match coercion_cost (static_type G v) t with
                  | Some c => (c, mkf name k r, [TEVal v t]) :: options name (N.succ k) v rows'
                  | None => options name (N.succ k) v rows'
                  end
      | [] => options name (N.succ k) v rows'
      end
  end.
Lemma viable_one name rows id v raw : Forall one_param rows ->
  forall k, viable (number_variants name k rows) (map (elab env G) (plain [(id, v)])) raw None = options name k v rows.
Proof.
  intros H. induction H as [|r rows (t & out & im & -> & Hv & Hr) _ IH]; intros k; [reflexivity|].
  cbn [number_variants viable options fst snd]. rewrite IH.
  pose proof (elab_func_one O seed first name k t out im G id v raw Hv Hr) as E. unfold mkf in E. cbn [fst snd] in E. unfold env. rewrite E.
  destruct (coercion_cost _ _); reflexivity.
Qed.

Lemma leaf_run t v : run O seed (rev bs) (TEVal v t) = coerced (try_cast O (lookup_value bs v) t).
Proof. cbn [run]. rewrite (lookup_value_rev G bs v Hc Hnd). reflexivity. Qed.

Lemma leaf_type v : static_type G v = type_of (lookup_value bs v).
Proof. symmetry. exact (proj2 (run_leaf_same O seed G bs v Hc Hnd)). Qed.

Lemma unary_run id name k rows leaves raw f :
  get_func_variants env name = Some (number_variants name k rows) -> Forall one_param rows ->
  (forall v, match best (options name k v rows) with
             | None => refused name
             | Some (_, fn, tes) => run O seed (rev bs) (TECall fn tes (f_out_type fn))
             end = f (lookup_value bs v)) ->
  outcome_of id name leaves raw = unary name f (option_map snd raw) (values bs leaves).
Proof.
  intros Hg Hone Hf. unfold outcome_of. cbn [elab]. rewrite Hg.
  destruct leaves as [|[lid v] [|l' leaves]].
  - rewrite viable_arity by (try exact Hone; cbn; lia). reflexivity.
  - rewrite viable_one by exact Hone. unfold unary, values. cbn [map fst snd]. rewrite <- Hf.
    destruct (best (options name k v rows)) as [[[c fn] tes]|]; reflexivity.
  - rewrite viable_arity; [reflexivity|exact Hone|cbn; lia].
Qed.

Lemma call1_run fn v t out : run O seed (rev bs) (TECall fn [TEVal v t] out) =
  let! w := coerced (try_cast O (lookup_value bs v) t) in let! r := f_impl fn seed [w] in try_cast O r out.
Proof.
  cbn [run mapM]. rewrite (lookup_value_rev G bs v Hc Hnd). destruct (coerced (try_cast O (lookup_value bs v) t)); reflexivity.
Qed.

Lemma cast_own v t : type_of v = t -> try_cast O v t = Ok v.
Proof. intros <-. apply cast_same. Qed.
Lemma cast_to_tokens v : try_cast O v TyTokens = Ok (VTokens (to_tokens v)).
Proof. destruct v; reflexivity. Qed.
Lemma read_cast ts t : t <> TyTokens -> (forall t', t <> TyVariadic t') ->
  try_cast O (VTokens ts) t = match read_tokens O t ts with Some w => Ok w | None => Err TypeError end.
Proof.
  intros Ht Hv. unfold try_cast. destruct t; try congruence; cbn [ty_eqb type_of read_tokens to_tokens]; unfold or_type_error, from_lit_str_as_ident;
    try (destruct (parse_path O ts); reflexivity); try (destruct (parse_type O ts); reflexivity); try (destruct (parse_expr O ts); reflexivity);
    try (destruct (parse_lit_int O ts); reflexivity); try reflexivity; try (exfalso; eapply Hv; reflexivity).
  - destruct (parse_lit_str O ts) as [[x p]|]; unfold or_type_error; [destruct (parse_str_ident O x)|destruct (parse_ident O ts)]; reflexivity.
  - destruct (parse_ident O ts); [reflexivity|]. destruct (parse_lit_str O ts); reflexivity.
Qed.

Ltac one_params := repeat (constructor; [do 3 eexists; split; [reflexivity|split; [reflexivity|discriminate]]|]); constructor.
Ltac by_type v :=
  cbn [options fst snd]; rewrite ?(leaf_type v);
  destruct (lookup_value bs v) eqn:El; cbn [type_of coercion_cost coercion_cost_basic ty_eqb best fst];
  repeat ((rewrite worse_cost by lia || rewrite better_cost by lia); cbn [best fst]);
  try reflexivity;
  rewrite call1_run, El; cbn [mkf f_impl f_out_type fst snd]; rewrite ?cast_to_tokens, ?cast_own by reflexivity;
  cbn [coerced bind].

Lemma text_function_run id name k g leaves raw :
  get_func_variants env name = Some (number_variants name k (snd (str_funcs O name g))) ->
  outcome_of id name leaves raw = on_text O name g (option_map snd raw) (values bs leaves).
Proof.
  intros Hg. unfold on_text. eapply unary_run; [exact Hg|cbn; one_params|]. intros v.
  cbn [str_funcs snd]. by_type v.
  - unfold str_func_ident, new_ident, identifier. destruct (ident_ok O (g x)); reflexivity.
  - reflexivity.
Qed.

Lemma normalize2_run id leaves raw :
  outcome_of id (txt "normalize2") leaves raw =
  unary (txt "normalize2") (fun v => identifier O (fn_normalize O (spelling O v))) (option_map snd raw) (values bs leaves).
Proof.
  eapply (unary_run id _ _ [ ([TyIdent], TyIdent, impl_normalize2_ident O); ([TyLitStr], TyIdent, impl_normalize2_str O);
    ([TyLitInt], TyIdent, impl_normalize2_int O); ([TyPath], TyIdent, impl_normalize2_path O); ([TyType], TyIdent, impl_normalize2_type O);
    ([TyExpr], TyIdent, impl_normalize2_expr O); ([TyTokens], TyIdent, impl_normalize2_tokens O) ]); [reflexivity|one_params|].
  intros v. by_type v; unfold identifier; unfold SpecFunctions.spelling, text_of; cbn [to_tokens];
    unfold impl_normalize2_ident, impl_normalize2_str, impl_normalize2_int, impl_normalize2_path, impl_normalize2_type, impl_normalize2_expr, impl_normalize2_tokens, new_ident;
    cbn [to_tokens]; destruct (ident_ok O _); reflexivity.
Qed.

Lemma cast_function_run id t leaves raw : t <> TyRaw -> t <> TyTokens -> (forall t', t <> TyVariadic t') ->
  outcome_of id (cast_name t) leaves raw = reading O (cast_name t) t (option_map snd raw) (values bs leaves).
Proof.
  intros Hr Ht Hv. unfold reading.
  assert (Hg : exists k, get_func_variants env (cast_name t) = Some (number_variants (cast_name t) k [([TyTokens], t, impl_to O t)])).
  { destruct t; try congruence; try (eexists; reflexivity). }
  destruct Hg as [k Hg]. eapply unary_run; [exact Hg|one_params|]. intros v.
  cbn [options fst snd]. rewrite coerce_tokens. cbn [best]. rewrite call1_run, cast_to_tokens. cbn [coerced bind mkf f_impl f_out_type fst snd impl_to].
  rewrite (read_cast _ t Ht Hv). destruct (read_tokens O t (to_tokens (lookup_value bs v))) as [w|] eqn:E; [|reflexivity]. cbn [bind].
  apply cast_own. apply (cast_type O (VTokens (to_tokens (lookup_value bs v)))). rewrite (read_cast _ t Ht Hv), E. reflexivity.
Qed.
Lemma to_tokens_run id leaves raw :
  outcome_of id (txt "to_tokens") leaves raw = reading O (txt "to_tokens") TyTokens (option_map snd raw) (values bs leaves).
Proof.
  unfold reading. eapply (unary_run id _ _ [([TyTokens], TyTokens, impl_to_tokens)]); [reflexivity|one_params|]. intros v.
  cbn [options fst snd]. rewrite coerce_tokens. cbn [best]. rewrite call1_run, cast_to_tokens. reflexivity.
Qed.

Lemma hash_function_run id leaves raw :
  outcome_of id (txt "hash") leaves raw = unary (txt "hash") (hash_meaning O seed) (option_map snd raw) (values bs leaves).
Proof.
  destruct leaves as [|[lid v] [|l leaves]].
  - reflexivity.
  - unfold outcome_of, unary, values. cbn [map fst snd]. apply hash_run; assumption.
  - unfold outcome_of. destruct (hash_variants O seed first) as [k Hk]. cbn [elab]. unfold env. rewrite Hk.
    rewrite viable_arity; [reflexivity|unfold hash_rows; one_params|cbn; lia].
Qed.

Lemma coerce_raw s : (forall t, s <> TyVariadic t) -> coercion_cost s TyRaw = Some (if ty_eqb s TyRaw then 0 else 5)%N.
Proof. intros H. destruct s; try reflexivity. Qed.
Lemma cast_to_raw v : try_cast O v TyRaw = Ok (VRaw (to_tokens v)).
Proof. destruct v; reflexivity. Qed.

Lemma source_run id name k g out im leaves raw :
  get_func_variants env name = Some (number_variants name k [([TyRaw], out, im)]) ->
  (forall ts, (let! r := im seed [VRaw ts] in try_cast O r out) = g ts) ->
  outcome_of id name leaves raw = on_source name g (option_map snd raw) (values bs leaves).
Proof.
  intros Hg Him. unfold outcome_of, on_source. cbn [elab]. rewrite Hg. cbn [number_variants viable].
  destruct raw as [[rid ts]|]; cbn [option_map snd].
  - unfold elab_func. cbn [f_arg_types best]. cbn [run mapM]. rewrite cast_to_raw. cbn [coerced bind f_impl f_out_type]. rewrite Him. reflexivity.
  - destruct leaves as [|[lid v] [|l leaves]].
    + pose proof (elab_func_arity name k TyRaw out im [] None eq_refl (or_intror eq_refl) ltac:(cbn; lia)) as E.
      unfold mkf in E. cbn [fst snd] in E. unfold plain. cbn [map]. rewrite E. reflexivity.
    + unfold elab_func. cbn [f_arg_types].
      replace (params _ _) with (Some [(TyRaw, 1%N)]) by reflexivity.
      cbn [plain map elab_args fst snd]. cbn [elab]. rewrite coerce_raw.
      2:{ intros t. rewrite leaf_type. destruct (lookup_value bs v); discriminate. }
      cbn [best]. rewrite call1_run, cast_to_raw. cbn [coerced bind f_impl f_out_type values map snd]. apply Him.
    + pose proof (elab_func_arity name k TyRaw out im (map (elab env G) (plain ((lid, v) :: l :: leaves))) None eq_refl (or_intror eq_refl) ltac:(cbn; lia)) as E.
      unfold mkf in E. cbn [fst snd] in E. rewrite E. reflexivity.
Qed.

Lemma function_run id name leaves raw : outcome_of id name leaves raw = call_meaning O seed name (option_map snd raw) (values bs leaves).
Proof.
  unfold call_meaning. destruct (assoc_str name (functions O seed)) as [f|] eqn:E.
  - unfold functions in E. cbn [assoc_str] in E.
    repeat match type of E with
      | (if str_eqb name ?x then _ else _) = _ => destruct (str_eqb name x) eqn:?Hx; [apply str_eqb_eq in Hx; subst name; injection E as <-|clear Hx]
      end.
    all: try (eapply text_function_run; reflexivity).
    + eapply source_run; [reflexivity|]. intros ts. unfold impl_normalize, new_ident, identifier. destruct (ident_ok O _); reflexivity.
    + apply normalize2_run.
    + apply hash_function_run.
    + apply concat_run; assumption.
    + exact (cast_function_run id TyIdent leaves raw ltac:(discriminate) ltac:(discriminate) ltac:(discriminate)).
    + exact (cast_function_run id TyPath leaves raw ltac:(discriminate) ltac:(discriminate) ltac:(discriminate)).
    + exact (cast_function_run id TyType leaves raw ltac:(discriminate) ltac:(discriminate) ltac:(discriminate)).
    + exact (cast_function_run id TyExpr leaves raw ltac:(discriminate) ltac:(discriminate) ltac:(discriminate)).
    + exact (cast_function_run id TyLitStr leaves raw ltac:(discriminate) ltac:(discriminate) ltac:(discriminate)).
    + exact (cast_function_run id TyLitInt leaves raw ltac:(discriminate) ltac:(discriminate) ltac:(discriminate)).
    + apply to_tokens_run.
    + eapply source_run; [reflexivity|]. intros ts. reflexivity.
    + discriminate E.
  - unfold outcome_of. cbn [elab].
    replace (get_func_variants env name) with (@None (list func)); [reflexivity|]. symmetry.
    assert (Hn : ~ In name (map fst (functions O seed))) by (apply assoc_str_None; exact E).
    destruct (get_func_variants env name) as [fs|] eqn:Eg; [|reflexivity].
    apply builtin_variants in Eg as (k & vs & Hin & _). exfalso. apply Hn.
    apply (in_map fst) in Hin. exact Hin.
Qed.
End Functions.

Lemma function_call O seed n pre a id name leaves raw bs c c' :
  NoDup (item_ids (pre ++ [(a, ECall id name (plain leaves) raw)])) -> ~ In a (map fst pre) ->
  make_substitutions O (new_initialized O seed n) {| spec_items := pre; is_comma_used := c |} = Ok bs ->
  make_substitutions O (new_initialized O seed n) {| spec_items := pre ++ [(a, ECall id name (plain leaves) raw)]; is_comma_used := c' |} =
  let! v := call_meaning O seed name (option_map snd raw) (map (fun l => lookup_value bs (snd l)) leaves) in Ok (bs ++ [(a, v)]).
Proof.
  intros Hnd Ha H. eapply bindings_last; [exact Hnd|exact Ha| |exact H].
  intros G Hc Hd. exact (function_run O seed n G bs Hc Hd id name leaves raw).
Qed.
