(** Definitions that are the same but for invisible groups have values that are. *)
From Coq Require Import String.
From Verif Require Import Base BaseFacts Token Types TypesProofs Values FormatString Ast Env Item Interpreter Parse Macro
  SpecElab ElabProofs ElabFacts BuiltinFacts SpecSubst SpecParse SpecItem SpecMacro SpecOutcome SpecRepro SpecInvisible InvisibleProofs SpecInvisibleRun.
Open Scope list_scope.

(** ** Elaboration looks at types only *)
Fixpoint over_texpr (F : list tt -> list tt) (t : texpr) : texpr :=
  match t with
  | TEVal v ty => TEVal (over_value F v) ty
  | TECall f args ty => TECall f (map (over_texpr F) args) ty
  end.
Definition over_outcome (F : list tt -> list tt) (o : outcome) : outcome :=
  match o with inl (te, c) => inl (over_texpr F te, c) | inr e => inr e end.

Section Natural.
Context (F : list tt -> list tt).
Lemma over_type v : type_of (over_value F v) = type_of v.
Proof. destruct v; reflexivity. Qed.
Lemma over_static G v : static_type G (over_value F v) = static_type G v.
Proof. destruct v; reflexivity. Qed.
Lemma elab_args_natural ps : forall (args args' : list elaborator),
  Forall2 (fun a a' => forall ex, a' ex = over_outcome F (a ex)) args args' ->
  elab_args ps args' = option_map (fun r => (fst r, map (over_texpr F) (snd r))) (elab_args ps args).
Proof.
  induction ps as [|[t m] ps IH]; intros args args' H; [reflexivity|]. destruct H as [|a a' args args' Ha H]; [reflexivity|].
  cbn [elab_args]. rewrite Ha, (IH _ _ H). destruct (a (Some t)) as [[te c]|]; [|reflexivity]. cbn [over_outcome].
  destruct (elab_args ps args) as [[c' tes]|]; reflexivity.
Qed.
Lemma elab_func_natural f args args' raw ex :
  Forall2 (fun a a' => forall ex, a' ex = over_outcome F (a ex)) args args' ->
  elab_func f args' (option_map F raw) ex = option_map (fun r => (fst r, map (over_texpr F) (snd r))) (elab_func f args raw ex).
Proof.
  intros H. unfold elab_func. destruct (match ex with Some t => _ | None => _ end) as [c0|]; [|reflexivity].
  assert (G : match params f (List.length args') with
    | None => None
    | Some ps => match elab_args ps args' with Some (c, tes) => Some ((c0 + c)%N, tes) | None => None end
    end = option_map (fun r => (fst r, map (over_texpr F) (snd r)))
     match params f (List.length args) with
    | None => None
    | Some ps => match elab_args ps args with Some (c, tes) => Some ((c0 + c)%N, tes) | None => None end
    end).
  { replace (List.length args') with (List.length args) by (clear -H; induction H; cbn; congruence).
    destruct (params f _) as [ps|]; [|reflexivity]. rewrite (elab_args_natural ps _ _ H). destruct (elab_args ps args) as [[c tes]|]; reflexivity. }
  destruct (f_arg_types f) as [|[] [|]]; try exact G. destruct raw; [reflexivity|exact G].
Qed.
Lemma viable_natural fs args args' raw ex :
  Forall2 (fun a a' => forall ex, a' ex = over_outcome F (a ex)) args args' ->
  viable fs args' (option_map F raw) ex = map (fun r => (fst r, map (over_texpr F) (snd r))) (viable fs args raw ex).
Proof.
  intros H. induction fs as [|f fs IH]; [reflexivity|]. cbn [viable]. rewrite (elab_func_natural f _ _ raw ex H), IH.
  destruct (elab_func f args raw ex) as [[c tes]|]; reflexivity.
Qed.
Lemma best_natural l : best (map (fun r : N * func * list texpr => (fst r, map (over_texpr F) (snd r))) l) =
  option_map (fun r => (fst r, map (over_texpr F) (snd r))) (best l).
Proof.
  induction l as [|x l IH]; [reflexivity|]. cbn [map best]. rewrite IH. destruct (best l) as [y|]; [|reflexivity]. cbn [option_map fst].
  destruct (betterb (fst y) (fst x)); reflexivity.
Qed.
Lemma elab_natural env G e : forall ex, elab env G (over_expr F e) ex = over_outcome F (elab env G e ex).
Proof.
  induction e as [id v|id name args raw IH] using expr_ind'; intros ex; cbn [over_expr elab].
  - rewrite over_static. destruct (coercion_cost _ _); reflexivity.
  - destruct (get_func_variants env name) as [fs|]; [|reflexivity].
    replace (option_map snd (option_map (fun p : N * list tt => (fst p, F (snd p))) raw)) with (option_map F (option_map snd raw)) by (destruct raw; reflexivity).
    rewrite (viable_natural fs (map (elab env G) args)).
    2: { rewrite map_map. clear -IH. induction IH as [|a args Ha _ IH]; cbn [map]; constructor; auto. }
    rewrite best_natural. destruct (best _) as [[[c f] tes]|]; reflexivity.
Qed.
Lemma over_target te : target_of (over_texpr F te) = target_of te.
Proof. destruct te; reflexivity. Qed.
Lemma elab_items_natural env items : forall G, elab_items env G (map_items (over_expr F) items) =
  match elab_items env G items with Ok tis => Ok (map (fun ti => (fst ti, over_texpr F (snd ti))) tis) | Err e => Err e | Panic p => Panic p end.
Proof.
  induction items as [|[name e] items IH]; intros G; [reflexivity|]. cbn [map_items map fst snd elab_items]. rewrite elab_natural.
  destruct (elab env G e None) as [[te c]|er]; [|reflexivity]. cbn [over_outcome]. destruct (assoc_str name G); [reflexivity|].
  rewrite over_target. unfold map_items in IH. rewrite IH. destruct (elab_items env _ items); reflexivity.
Qed.
End Natural.

(** ** Evaluation *)
Section Run.
Context (O : oracles) (Y : syntax) (D : list tt -> Prop) (L : sees_through O Y D).

Definition value_alike (v w : value) : Prop := over_value flats v = over_value flats w /\ D (to_tokens v) /\ D (to_tokens w).
Lemma tokens_alike v w : value_alike v w -> alike D (to_tokens v) (to_tokens w).
Proof. intros (E & H1 & H2). split; [exact H1|]. split; [exact H2|]. destruct v, w; try discriminate E; cbn [over_value to_tokens] in *; injection E; intros; subst; auto. Qed.
Lemma alike_refl ts : D ts -> alike D ts ts.
Proof. intros H. split; [exact H|split; [exact H|reflexivity]]. Qed.
Lemma value_refl v : D (to_tokens v) -> value_alike v v.
Proof. intros H. split; [reflexivity|]. split; exact H. Qed.

Lemma same_bind {A B} (R : A -> A -> Prop) (S : B -> B -> Prop) x y f g : same_result R x y ->
  (forall a b, R a b -> same_result S (f a) (g b)) -> same_result S (bind x f) (bind y g).
Proof. destruct x, y; cbn; try tauto; intros H1 H2; auto. Qed.

Lemma ident_alike x : value_alike (VIdent x) (VIdent x).
Proof. apply value_refl, (in_ident _ _ _ L). Qed.
Lemma str_alike v p : value_alike (VLitStr v p) (VLitStr v p).
Proof. apply value_refl, (in_literal _ _ _ L). Qed.
Lemma int_alike d r : value_alike (VLitInt d r) (VLitInt d r).
Proof. apply value_refl, (in_literal _ _ _ L). Qed.

Lemma node_cast (p : list tt -> option (list tt)) (f : list tt -> value) a b : parses_alike D p ->
  (forall x y, alike D x y -> value_alike (f x) (f y)) -> alike D a b -> same_result value_alike (or_type_error (p a) f) (or_type_error (p b) f).
Proof. intros Hp Hf Hab. specialize (Hp _ _ Hab). unfold or_type_error. destruct (p a), (p b); try contradiction; cbn; auto. Qed.
Lemma from_str_cast x : same_result value_alike (from_lit_str_as_ident O x) (from_lit_str_as_ident O x).
Proof. unfold from_lit_str_as_ident, or_type_error. destruct (parse_str_ident O x); cbn; [apply ident_alike|reflexivity]. Qed.
Lemma mk_alike (f : list tt -> value) : (f = VPath \/ f = VType \/ f = VExpr \/ f = VTokens \/ f = VRaw) -> forall x y, alike D x y -> value_alike (f x) (f y).
Proof.
  intros Hf x y (H1 & H2 & H3). destruct Hf as [->|[->|[->|[->| ->]]]]; (split; [cbn; congruence|split; assumption]).
Qed.
Ltac mk := apply mk_alike; tauto.
Lemma cast_ident a b : alike D a b ->
  same_result value_alike
    match parse_lit_str O a with Some (x, _) => from_lit_str_as_ident O x | None => or_type_error (parse_ident O a) VIdent end
    match parse_lit_str O b with Some (x, _) => from_lit_str_as_ident O x | None => or_type_error (parse_ident O b) VIdent end.
Proof.
  intros H. rewrite (through_a_lit_str _ _ _ L _ _ H), (through_an_ident _ _ _ L _ _ H).
  destruct (parse_lit_str O b) as [[x p]|]; [apply from_str_cast|]. unfold or_type_error. destruct (parse_ident O b); cbn; [apply ident_alike|reflexivity].
Qed.
Lemma cast_str a b : alike D a b ->
  same_result value_alike
    match parse_ident O a with Some x => Ok (VLitStr x []) | None => or_type_error (parse_lit_str O a) (fun l => VLitStr (fst l) (snd l)) end
    match parse_ident O b with Some x => Ok (VLitStr x []) | None => or_type_error (parse_lit_str O b) (fun l => VLitStr (fst l) (snd l)) end.
Proof.
  intros H. rewrite (through_a_lit_str _ _ _ L _ _ H), (through_an_ident _ _ _ L _ _ H).
  destruct (parse_ident O b) as [x|]; [apply str_alike|]. unfold or_type_error. destruct (parse_lit_str O b); cbn; [apply str_alike|reflexivity].
Qed.
Lemma cast_int a b : alike D a b ->
  same_result value_alike (or_type_error (parse_lit_int O a) (fun l => VLitInt (fst l) (snd l))) (or_type_error (parse_lit_int O b) (fun l => VLitInt (fst l) (snd l))).
Proof.
  intros H. rewrite (through_a_lit_int _ _ _ L _ _ H). unfold or_type_error. destruct (parse_lit_int O b); cbn; [apply int_alike|reflexivity].
Qed.
Lemma cast_alike v w t : value_alike v w -> same_result value_alike (try_cast O v t) (try_cast O w t).
Proof.
  intros H. pose proof (tokens_alike _ _ H) as HT. assert (Ety : type_of v = type_of w) by (destruct H as [E _]; rewrite <- (over_type flats v), E; apply over_type).
  unfold try_cast. rewrite Ety. destruct (ty_eqb (type_of w) t); [exact H|].
  assert (Hp : same_result value_alike (or_type_error (parse_path O (to_tokens v)) VPath) (or_type_error (parse_path O (to_tokens w)) VPath))
    by (apply node_cast; [exact (through_a_path _ _ _ L)|mk|exact HT]).
  assert (Hy : same_result value_alike (or_type_error (parse_type O (to_tokens v)) VType) (or_type_error (parse_type O (to_tokens w)) VType))
    by (apply node_cast; [exact (through_a_type _ _ _ L)|mk|exact HT]).
  assert (He : same_result value_alike (or_type_error (Values.parse_expr O (to_tokens v)) VExpr) (or_type_error (Values.parse_expr O (to_tokens w)) VExpr))
    by (apply node_cast; [exact (through_an_expr _ _ _ L)|mk|exact HT]).
  pose proof (cast_ident _ _ HT) as Hi. pose proof (cast_str _ _ HT) as Hs. pose proof (cast_int _ _ HT) as Hn.
  assert (Ht : value_alike (VTokens (to_tokens v)) (VTokens (to_tokens w))) by (revert HT; mk).
  assert (Hr : value_alike (VRaw (to_tokens v)) (VRaw (to_tokens w))) by (revert HT; mk).
  destruct H as [E [H1 H2]].
  destruct v as [x|a|a|a|x p|d r|a|a], w as [x'|a'|a'|a'|x' p'|d' r'|a'|a']; try discriminate E; cbn [over_value] in E; try (injection E as <-); try (injection E as <- <-);
    destruct t; cbn [to_tokens] in *; try assumption; try reflexivity; try apply str_alike; try apply from_str_cast.
  apply (mk_alike VPath); [tauto|]. apply alike_refl. exact H1.
Qed.

(** ** The functions *)
Definition respects (impl : N -> list value -> res value) : Prop :=
  forall seed vs ws, Forall2 value_alike vs ws -> same_result value_alike (impl seed vs) (impl seed ws).
Lemma new_ident_same x : same_result value_alike (new_ident O x) (new_ident O x).
Proof. unfold new_ident. destruct (ident_ok O x); cbn; [apply ident_alike|reflexivity]. Qed.
Lemma collect_same {A} (g : value -> option A) (R : A -> A -> Prop) vs ws : Forall2 value_alike vs ws ->
  (forall v w, value_alike v w -> match g v, g w with Some a, Some b => R a b | None, None => True | _, _ => False end) ->
  match collect_args g vs, collect_args g ws with Some l, Some l' => Forall2 R l l' | None, None => True | _, _ => False end.
Proof.
  intros H Hg. induction H as [|v w vs ws H _ IH]; [constructor|]. cbn [collect_args]. specialize (Hg _ _ H).
  destruct (g v), (g w); try contradiction; [|exact I]. destruct (collect_args g vs), (collect_args g ws); try contradiction; [|exact I]. constructor; assumption.
Qed.
Lemma Forall2_same {A} (l l' : list A) : Forall2 eq l l' -> l = l'.
Proof. induction 1; congruence. Qed.
Ltac values := intros seed vs ws H;
  destruct H as [|v w vs1 ws1 H [|v2 w2 vs2 ws2 H2 Hr]];
  [reflexivity
  |destruct H as (E & H1 & H2); destruct v, w; try discriminate E; try reflexivity
  |destruct H as (E & H1 & H3); destruct v, w; try discriminate E; reflexivity].
Lemma str_func_lit_respects g : respects (str_func_lit g).
Proof. values. injection E as <- _. cbn. apply str_alike. Qed.
Lemma str_func_ident_respects g : respects (str_func_ident O g).
Proof. values. injection E as <-. apply new_ident_same. Qed.
Ltac texts := cbn [over_value] in *; match goal with E : _ = _ |- _ => injection E as E end;
  match goal with E : flats ?a = flats ?b, H1 : D _, H2 : D _ |- _ => rewrite (through_text _ _ _ L a b (conj H1 (conj H2 E))) end; apply new_ident_same.
Lemma normalize_respects : respects (impl_normalize O). Proof. values. unfold impl_normalize. texts. Qed.
Lemma normalize2_path_respects : respects (impl_normalize2_path O). Proof. values. unfold impl_normalize2_path. texts. Qed.
Lemma normalize2_type_respects : respects (impl_normalize2_type O). Proof. values. unfold impl_normalize2_type. texts. Qed.
Lemma normalize2_expr_respects : respects (impl_normalize2_expr O). Proof. values. unfold impl_normalize2_expr. texts. Qed.
Lemma normalize2_tokens_respects : respects (impl_normalize2_tokens O). Proof. values. unfold impl_normalize2_tokens. texts. Qed.
Lemma hash_tokens_respects : respects (impl_hash_tokens O). Proof. values. unfold impl_hash_tokens. texts. Qed.
Lemma normalize2_ident_respects : respects (impl_normalize2_ident O). Proof. values. injection E as <-. apply new_ident_same. Qed.
Lemma normalize2_str_respects : respects (impl_normalize2_str O). Proof. values. injection E as <- _. apply new_ident_same. Qed.
Lemma normalize2_int_respects : respects (impl_normalize2_int O). Proof. values. injection E as <- _. apply new_ident_same. Qed.
Lemma hash_str_respects : respects (impl_hash_str O). Proof. values. injection E as <- _. cbn. apply str_alike. Qed.
Lemma hash_ident_respects : respects (impl_hash_ident O). Proof. values. injection E as <-. apply new_ident_same. Qed.
Lemma to_respects t : respects (impl_to O t).
Proof. values. unfold impl_to. apply cast_alike. split; [exact E|split; assumption]. Qed.
Lemma to_tokens_respects : respects impl_to_tokens.
Proof. values. cbn. split; [exact E|split; assumption]. Qed.
Lemma raw_respects : respects impl_raw.
Proof. values. cbn in *. injection E as E. split; [cbn; congruence|split; assumption]. Qed.
Lemma concat_idents_respects : respects (impl_concat_idents O).
Proof.
  intros seed vs ws H. unfold impl_concat_idents.
  pose proof (collect_same (fun v => match v with VIdent x => Some x | _ => None end) eq _ _ H) as Hc.
  assert (Hg : forall v w, value_alike v w -> match (match v with VIdent x => Some x | _ => None end), (match w with VIdent x => Some x | _ => None end) with
    Some a, Some b => a = b | None, None => True | _, _ => False end) by (intros v w (E & _); destruct v, w; try discriminate E; try exact I; injection E as E; exact E).
  specialize (Hc Hg). destruct (collect_args _ vs), (collect_args _ ws); try contradiction; [|reflexivity]. apply Forall2_same in Hc as ->. apply new_ident_same.
Qed.
Lemma concat_ident_tokens_respects : respects (impl_concat_ident_tokens O).
Proof.
  intros seed vs0 ws0 H. unfold impl_concat_ident_tokens. destruct H as [|v w vs ws H Hr]; [reflexivity|].
  pose proof (collect_same (fun v => match v with VTokens ts => Some (to_string O ts) | _ => None end) eq _ _ Hr) as Hc.
  assert (Hg : forall v w, value_alike v w -> match (match v with VTokens x => Some (to_string O x) | _ => None end), (match w with VTokens x => Some (to_string O x) | _ => None end) with
    Some a, Some b => a = b | None, None => True | _, _ => False end).
  { intros a b (E & H1 & H2). destruct a, b; try discriminate E; try exact I. cbn in E. injection E as E. apply (through_text _ _ _ L). split; [exact H1|split; [exact H2|exact E]]. }
  specialize (Hc Hg). destruct (collect_args _ vs), (collect_args _ ws); try contradiction; [|reflexivity]. apply Forall2_same in Hc as ->.
  rewrite (through_text _ _ _ L _ _ (tokens_alike _ _ H)). destruct (parse_str_ident O _); cbn; [apply ident_alike|reflexivity].
Qed.
Lemma concat_strs_respects : respects impl_concat_strs.
Proof.
  intros seed vs ws H. unfold impl_concat_strs.
  pose proof (collect_same (fun v => match v with VLitStr x _ => Some x | _ => None end) eq _ _ H) as Hc.
  assert (Hg : forall v w, value_alike v w -> match (match v with VLitStr x _ => Some x | _ => None end), (match w with VLitStr x _ => Some x | _ => None end) with
    Some a, Some b => a = b | None, None => True | _, _ => False end) by (intros v w (E & _); destruct v, w; try discriminate E; try exact I; injection E as E _; exact E).
  specialize (Hc Hg). destruct (collect_args _ vs), (collect_args _ ws); try contradiction; [|reflexivity]. apply Forall2_same in Hc as ->. cbn. apply str_alike.
Qed.
Lemma concat_ints_respects : respects (impl_concat_ints O).
Proof.
  intros seed vs ws H. unfold impl_concat_ints.
  pose proof (collect_same (fun v => match v with VLitInt x _ => Some x | _ => None end) eq _ _ H) as Hc.
  assert (Hg : forall v w, value_alike v w -> match (match v with VLitInt x _ => Some x | _ => None end), (match w with VLitInt x _ => Some x | _ => None end) with
    Some a, Some b => a = b | None, None => True | _, _ => False end) by (intros v w (E & _); destruct v, w; try discriminate E; try exact I; injection E as E _; exact E).
  specialize (Hc Hg). destruct (collect_args _ vs), (collect_args _ ws); try contradiction; [|reflexivity]. apply Forall2_same in Hc as ->.
  destruct (lit_int_new O _) as [[d r]|]; cbn; [apply int_alike|reflexivity].
Qed.
Lemma concat_tokens_respects : respects impl_concat_tokens.
Proof.
  intros seed vs ws H. unfold impl_concat_tokens.
  pose proof (collect_same (fun v => match v with VTokens ts => Some ts | _ => None end) (alike D) _ _ H) as Hc.
  assert (Hg : forall v w, value_alike v w -> match (match v with VTokens x => Some x | _ => None end), (match w with VTokens x => Some x | _ => None end) with
    Some a, Some b => alike D a b | None, None => True | _, _ => False end).
  { intros a b Hab. pose proof (tokens_alike _ _ Hab) as HT. destruct Hab as (E & _). destruct a, b; try discriminate E; try exact I. exact HT. }
  specialize (Hc Hg). destruct (collect_args _ vs) as [l|], (collect_args _ ws) as [l'|]; try contradiction; [|reflexivity]. cbn.
  apply (mk_alike VTokens); [tauto|]. clear -Hc L. induction Hc as [|a b l l' H _ IH]; [apply alike_refl, (in_nothing _ _ _ L)|].
  cbn [List.concat]. destruct H as (H1 & H2 & H3), IH as (I1 & I2 & I3). split; [|split]; try (apply (in_two _ _ _ L); assumption). rewrite !flats_app. congruence.
Qed.
Lemma table_respects : Forall (fun r : row => Forall (fun x => respects (snd x)) (snd r)) (table O).
Proof.
  unfold table, str_funcs. repeat (apply Forall_cons || apply Forall_nil); cbn [fst snd]; repeat (apply Forall_cons || apply Forall_nil); cbn [fst snd];
  first [apply str_func_lit_respects|apply str_func_ident_respects|apply normalize_respects|apply normalize2_path_respects|apply normalize2_type_respects
        |apply normalize2_expr_respects|apply normalize2_tokens_respects|apply hash_tokens_respects|apply normalize2_ident_respects|apply normalize2_str_respects
        |apply normalize2_int_respects|apply hash_str_respects|apply hash_ident_respects|apply to_respects|apply to_tokens_respects|apply raw_respects
        |apply concat_idents_respects|apply concat_ident_tokens_respects|apply concat_strs_respects|apply concat_ints_respects|apply concat_tokens_respects].
Qed.
Lemma builtin_respects seed id name fs f : get_func_variants (new_initialized O seed id) name = Some fs -> In f fs -> respects (f_impl f).
Proof.
  intros Hg Hf. apply number_rows_assoc in Hg as (k & rs & Hin & ->). apply number_variants_in in Hf as [Hf _].
  pose proof table_respects as H. rewrite Forall_forall in H. specialize (H _ Hin). rewrite Forall_forall in H. exact (H _ Hf).
Qed.

(** ** Elaborated expressions *)
Inductive good : texpr -> Prop :=
| good_val : forall v t, D (to_tokens v) -> good (TEVal v t)
| good_call : forall f args t, respects (f_impl f) -> Forall good args -> good (TECall f args t).

Lemma all_in args : (fix all (l : list expr) : Prop := match l with [] => True | a :: r => expr_in D a /\ all r end) args -> Forall (expr_in D) args.
Proof. induction args as [|a args IH]; [constructor|]. intros [H1 H2]. constructor; auto. Qed.
Section Env.
Context (seed id : N).
Let env := new_initialized O seed id.
Lemma elab_good G e : expr_in D e -> forall ex te d, elab env G e ex = inl (te, d) -> good te.
Proof.
  induction e as [eid v0|eid name args raw IH] using expr_ind'; intros Hin ex te d He; cbn [elab] in He.
  - destruct (coercion_cost _ _); [|discriminate]. injection He as <- <-. constructor. exact Hin.
  - destruct (get_func_variants env name) as [fs|] eqn:Eg; [|discriminate].
    destruct (best _) as [[[d0 f] tes]|] eqn:E; [|discriminate]. injection He as <- <-.
    apply best_in, viable_in in E as [Hf E]. constructor; [exact (builtin_respects _ _ _ _ _ Eg Hf)|].
    destruct Hin as [Hargs Hraw]. apply all_in in Hargs.
    apply elab_func_inv in E as (c0 & _ & [(ts & _ & Hr & _ & ->)|(_ & ps & c' & Hp & Ha & _)]).
    + destruct raw as [[rid rts]|]; cbn [option_map] in Hr; [|discriminate]. injection Hr as ->. constructor; [|constructor]. constructor. exact Hraw.
    + apply elab_args_inv in Ha; [|rewrite (params_length _ _ _ Hp), map_length; reflexivity].
      apply params_length in Hp. rewrite map_length in Hp. clear - IH Ha Hp Hargs.
      revert ps tes Ha Hp. induction IH as [|a args Ha0 _ IHargs]; intros ps tes Ha Hp.
      * destruct ps; [|discriminate Hp]. inversion Ha; subst. constructor.
      * destruct ps as [|pt ps]; [discriminate Hp|]. cbn [map combine] in Ha. inversion Ha as [|? te ? tes1 (d1 & H1) H2]; subst.
        cbn [fst snd] in H1. inversion Hargs; subst.
        constructor; [eapply Ha0; eassumption|]. eapply IHargs; [assumption|exact H2|injection Hp; auto].
Qed.
Lemma elab_items_good items : Forall (fun it : spec_item => expr_in D (snd it)) items -> forall G tis, elab_items env G items = Ok tis -> Forall (fun ti => good (snd ti)) tis.
Proof.
  induction 1 as [|[name e] items He _ IH]; intros G tis Ht; cbn [elab_items] in Ht; [injection Ht as <-; constructor|].
  destruct (elab env G e None) as [[te d]|] eqn:Ee; [|discriminate]. destruct (assoc_str name G); [discriminate|].
  destruct (elab_items env _ items) as [tis'| |] eqn:Et; cbn [bind] in Ht; try discriminate Ht. injection Ht as <-.
  constructor; [exact (elab_good _ _ He _ _ _ Ee)|exact (IH _ _ Et)].
Qed.
End Env.

Definition env_alike (a b : list (str * value)) : Prop := Forall2 (fun x y => fst x = fst y /\ value_alike (snd x) (snd y)) a b.
Lemma assoc_alike x a b : env_alike a b -> match assoc_str x a, assoc_str x b with Some v, Some w => value_alike v w | None, None => True | _, _ => False end.
Proof.
  induction 1 as [|[y v] [y' w] a b [E H] _ IH]; [exact I|]. cbn [fst snd] in *. subst y'. cbn [assoc_str]. destruct (str_eqb x y); [exact H|exact IH].
Qed.
Lemma run_alike seed ctx ctx' : env_alike ctx ctx' -> forall te te', over_texpr flats te = over_texpr flats te' -> good te -> good te' ->
  same_result value_alike (run O seed ctx te) (run O seed ctx' te').
Proof.
  intros Hc. induction te as [v t|f args t IH] using texpr_ind'; intros te' E G G'; destruct te' as [v' t'|f' args' t']; try discriminate E.
  - cbn [over_texpr] in E. injection E as E <-. inversion G; inversion G'; subst. cbn [run].
    assert (H : value_alike (match v with VIdent x => match assoc_str x ctx with Some w => w | None => v end | _ => v end)
                            (match v' with VIdent x => match assoc_str x ctx' with Some w => w | None => v' end | _ => v' end)).
    { assert (Hv : value_alike v v') by (split; [exact E|split; assumption]).
      destruct v, v'; try discriminate E; try exact Hv. cbn [over_value] in E. injection E as <-.
      pose proof (assoc_alike x _ _ Hc) as Ha. destruct (assoc_str x ctx), (assoc_str x ctx'); try contradiction; assumption. }
    pose proof (cast_alike _ _ t H) as Hk. destruct (try_cast O _ t), (try_cast O _ t); try contradiction; cbn; auto.
  - cbn [over_texpr] in E. injection E as <- E <-. inversion G as [|? ? ? Hf Ga]; inversion G' as [|? ? ? _ Ga']; subst. cbn [run].
    apply (same_bind (Forall2 value_alike)).
    + clear -IH E Ga Ga' Hc. revert args' E Ga'. induction IH as [|a args Ha _ IHargs]; intros [|a' args'] E Ga'; try discriminate E; [constructor|].
      cbn [map] in E. injection E as E1 E2. inversion Ga; inversion Ga'; subst. cbn [mapM].
      apply (same_bind value_alike); [apply Ha; assumption|]. intros v w Hv. apply (same_bind (Forall2 value_alike)); [apply IHargs; assumption|].
      intros vs ws Hvs. constructor; assumption.
    + intros vs ws Hv. apply (same_bind value_alike); [apply Hf; exact Hv|]. intros v w Hvw. apply cast_alike. exact Hvw.
Qed.
Lemma run_items_alike seed : forall tis tis' ctx ctx', env_alike ctx ctx' ->
  map (fun ti => (fst ti, over_texpr flats (snd ti))) tis = map (fun ti => (fst ti, over_texpr flats (snd ti))) tis' ->
  Forall (fun ti => good (snd ti)) tis -> Forall (fun ti => good (snd ti)) tis' ->
  same_result env_alike (run_items O seed ctx tis) (run_items O seed ctx' tis').
Proof.
  induction tis as [|[x te] tis IH]; intros [|[x' te'] tis'] ctx ctx' Hc E G G'; try discriminate E; [constructor|].
  cbn [map fst snd] in E. injection E as <- E1 E2. inversion G; inversion G'; subst. cbn [run_items].
  apply (same_bind value_alike); [apply run_alike; assumption|]. intros v w Hv. apply (same_bind env_alike).
  - apply IH; try assumption. constructor; [split; [reflexivity|exact Hv]|exact Hc].
  - intros bs bs' Hb. constructor; [split; [reflexivity|exact Hv]|exact Hb].
Qed.

(** Definitions that are the same but for invisible groups. *)
Theorem bindings_alike seed id items items' : map_items (over_expr flats) items = map_items (over_expr flats) items' ->
  Forall (fun it => expr_in D (snd it)) items -> Forall (fun it => expr_in D (snd it)) items' ->
  same_result env_alike (bindings O (new_initialized O seed id) items) (bindings O (new_initialized O seed id) items').
Proof.
  intros E H H'. unfold bindings. pose proof (elab_items_natural flats (new_initialized O seed id) items []) as N1.
  pose proof (elab_items_natural flats (new_initialized O seed id) items' []) as N2. rewrite E in N1. rewrite N1 in N2. clear N1 E.
  pose proof (elab_items_good seed id _ H []) as G1. pose proof (elab_items_good seed id _ H' []) as G2.
  destruct (elab_items _ [] items) as [tis| |], (elab_items _ [] items') as [tis'| |]; try discriminate N2; cbn [bind]; try (injection N2 as ->; reflexivity).
  apply run_items_alike; [constructor|injection N2 as N2; exact N2|apply G1; reflexivity|apply G2; reflexivity].
Qed.
End Run.
