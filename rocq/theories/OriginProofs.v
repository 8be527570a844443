(** Proofs for C80: the identifiers of values, of parsed expressions and of the code. *)
From Coq Require Import String.
From Verif Require Import Base BaseFacts Token Types Values Ast Env Normalize FormatString Item Deprecation Interpreter Parse Macro
  SpecProduct SpecTuple SpecElab SpecSubst SpecItem SpecMacro SpecOutcome SpecKeywords SpecParse SpecDeprecation SpecOrigins ElabFacts BuiltinFacts MacroProofs MeaningProofs KeywordsProofs ParseProofs LoopAlgebra NestedProofs TypesProofs.
Open Scope list_scope.

Lemma names_app a b : names (a ++ b) = names a ++ names b.
Proof. apply flat_map_app. Qed.
Lemma names_concat l : names (List.concat l) = flat_map names l.
Proof. induction l as [|a l IH]; [reflexivity|]. cbn [List.concat flat_map]. rewrite names_app, IH. reflexivity. Qed.
Lemma names_flat_map {A} (f : A -> list tt) l : names (flat_map f l) = flat_map (fun x => names (f x)) l.
Proof. induction l as [|a l IH]; [reflexivity|]. cbn [flat_map]. rewrite names_app, IH. reflexivity. Qed.
Lemma names_cons t ts : names (t :: ts) = names1 t ++ names ts.
Proof. reflexivity. Qed.
Lemma names_group d ts : names [TGroup d ts] = names ts.
Proof. unfold names. cbn [flat_map names1]. apply app_nil_r. Qed.

Section Over.
Context (Q : str -> Prop).
(** Tokens all of whose identifiers satisfy [Q]. *)
Definition over (ts : list tt) : Prop := Forall Q (names ts).
Lemma over_app a b : over (a ++ b) <-> over a /\ over b.
Proof. unfold over. rewrite names_app. apply Forall_app. Qed.
Lemma over_cons t ts : over (t :: ts) <-> over [t] /\ over ts.
Proof. exact (over_app [t] ts). Qed.
Lemma over_nil : over [].
Proof. constructor. Qed.
Lemma over_group d ts : over [TGroup d ts] <-> over ts.
Proof. unfold over. rewrite names_group. reflexivity. Qed.
Lemma over_incl a b : incl (names a) (names b) -> over b -> over a.
Proof. unfold over. rewrite !Forall_forall. intros Hi Hb x Hx. apply Hb, Hi, Hx. Qed.
Lemma over_ident x : over [TIdent x] <-> Q x.
Proof. unfold over, names. cbn. split; [intros H; inversion H; assumption|intros H; repeat constructor; exact H]. Qed.
Lemma over_lit l : over [TLit l].
Proof. constructor. Qed.
Lemma over_concat l : Forall over l -> over (List.concat l).
Proof. induction 1 as [|a l Ha _ IH]; [constructor|]. cbn [List.concat]. apply over_app. auto. Qed.
Lemma over_in t ts : In t ts -> over ts -> over [t].
Proof. intros Hin H. induction ts as [|u ts IH]; [destruct Hin|]. apply over_cons in H as [H1 H2]. destruct Hin as [->|Hin]; auto. Qed.
Lemma over_forall ts : over ts <-> Forall (fun t => over [t]) ts.
Proof.
  induction ts as [|t ts IH]; [split; constructor|]. rewrite over_cons, IH. split; [intros [H1 H2]; constructor; assumption|].
  intros H; inversion H; auto.
Qed.
Lemma over_firstn k ts : over ts -> over (firstn k ts).
Proof. rewrite <- (firstn_skipn k ts) at 1. rewrite over_app. tauto. Qed.
Lemma over_skipn k ts : over ts -> over (skipn k ts).
Proof. rewrite <- (firstn_skipn k ts) at 1. rewrite over_app. tauto. Qed.
Definition value_over (v : value) : Prop := over (to_tokens v).
Fixpoint expr_over (e : expr) : Prop :=
  match e with
  | EValue _ v => value_over v
  | ECall _ _ args raw => fold_right and True (map expr_over args) /\ match raw with Some (_, ts) => over ts | None => True end
  end.
Lemma all_over l : fold_right and True (map expr_over l) <-> Forall expr_over l.
Proof.
  induction l as [|e l IH]; cbn; [split; constructor|]. rewrite IH. split; [intros [H1 H2]; constructor; assumption|intros H; inversion H; auto].
Qed.

(** ** Values *)
Section Values.
Context (O : oracles) (P : parsers) (HK : keeps_names O P).
Hypothesis HI : forall ts x, parse_ident O ts = Some x -> ts = [TIdent x].
Hypothesis HQ : forall x, composed O x -> Q x.

Lemma from_str_over x w : from_lit_str_as_ident O x = Ok w -> value_over w.
Proof.
  unfold from_lit_str_as_ident, or_type_error. destruct (parse_str_ident O x) as [y|] eqn:E; [|discriminate].
  intros H; injection H as <-. apply over_ident, HQ. right. eauto.
Qed.
Lemma tokens_ident_over ts w : over ts ->
  match parse_lit_str O ts with
  | Some (x, _) => from_lit_str_as_ident O x
  | None => or_type_error (parse_ident O ts) VIdent
  end = Ok w -> value_over w.
Proof.
  intros Ho. destruct (parse_lit_str O ts) as [[x p]|]; [apply from_str_over|].
  unfold or_type_error. destruct (parse_ident O ts) as [x|] eqn:E1; [|discriminate]. intros H; injection H as <-.
  apply HI in E1. subst ts. exact Ho.
Qed.
Lemma tokens_str_over ts w :
  match parse_ident O ts with
  | Some x => Ok (VLitStr x [])
  | None => or_type_error (parse_lit_str O ts) (fun l => VLitStr (fst l) (snd l))
  end = Ok w -> value_over w.
Proof.
  destruct (parse_ident O ts) as [x|]; [intros H; injection H as <-; apply over_lit|].
  unfold or_type_error. destruct (parse_lit_str O ts) as [[x p]|]; [|discriminate]. intros H; injection H as <-. apply over_lit.
Qed.
Lemma node_over (p : list tt -> option (list tt)) (f : list tt -> value) ts w :
  (forall ts r, p ts = Some r -> incl (names r) (names ts)) -> (forall r, to_tokens (f r) = r) -> over ts ->
  or_type_error (p ts) f = Ok w -> value_over w.
Proof.
  intros Hp Hf Ho. unfold or_type_error. destruct (p ts) as [r|] eqn:E; [|discriminate]. intros H; injection H as <-.
  unfold value_over. rewrite Hf. eapply over_incl; [apply Hp; exact E|exact Ho].
Qed.
Lemma int_over ts w : or_type_error (parse_lit_int O ts) (fun l => VLitInt (fst l) (snd l)) = Ok w -> value_over w.
Proof.
  unfold or_type_error. destruct (parse_lit_int O ts) as [[d r]|]; [|discriminate]. intros H; injection H as <-. apply over_lit.
Qed.
Lemma cast_over v t w : value_over v -> try_cast O v t = Ok w -> value_over w.
Proof.
  intros Hv. unfold try_cast. destruct (ty_eqb (type_of v) t); [intros H; injection H as <-; exact Hv|].
  assert (Hp := kept_path O P HK). assert (Ht := kept_type O P HK). assert (He := kept_expr O P HK).
  intros H; destruct v as [x|ts|ts|ts|x p|d r|ts|ts], t; cbv zeta in H; try discriminate H; unfold value_over in Hv; cbn [to_tokens] in *;
    first [ eapply tokens_ident_over; [exact Hv|exact H]
          | eapply tokens_str_over; exact H
          | eapply int_over; exact H
          | eapply node_over; [exact Hp| |exact Hv|exact H]; intros ?; reflexivity
          | eapply node_over; [exact Ht| |exact Hv|exact H]; intros ?; reflexivity
          | eapply node_over; [exact He| |exact Hv|exact H]; intros ?; reflexivity
          | injection H as <-; exact Hv
          | injection H as <-; apply over_lit
          | eapply from_str_over; exact H ].
Qed.

Lemma new_ident_over x w : new_ident O x = Ok w -> value_over w.
Proof. unfold new_ident. destruct (ident_ok O x) eqn:E; [|discriminate]. intros H; injection H as <-. apply over_ident, HQ. left. exact E. Qed.
Definition row_over (r : row) : Prop :=
  Forall (fun x => forall seed vs v, Forall value_over vs -> snd x seed vs = Ok v -> value_over v) (snd r).
Lemma str_funcs_over name g : row_over (str_funcs O name g).
Proof.
  constructor; [|constructor; [|constructor]]; intros seed vs v _ H; cbn [fst snd] in H.
  - unfold str_func_lit in H. destruct vs as [|[x|ts|ts|ts|x p|d r|ts|ts] [|]]; try discriminate H. injection H as <-. apply over_lit.
  - unfold str_func_ident in H. destruct vs as [|[x|ts|ts|ts|x p|d r|ts|ts] [|]]; try discriminate H. apply new_ident_over in H. exact H.
Qed.
Lemma collect_over vs : forall l, Forall value_over vs ->
  collect_args (fun v => match v with VTokens ts => Some ts | _ => None end) vs = Some l -> Forall over l.
Proof.
  induction vs as [|v vs IH]; intros l Hv H; cbn [collect_args] in H; [injection H as <-; constructor|].
  inversion Hv; subst. destruct v; try discriminate H. destruct (collect_args _ vs) as [l'|]; [|discriminate]. injection H as <-.
  constructor; auto.
Qed.
Lemma to_over t seed vs w : Forall value_over vs -> impl_to O t seed vs = Ok w -> value_over w.
Proof.
  intros Hv. unfold impl_to. destruct vs as [|[x|ts|ts|ts|x p|d r|ts|ts] [|]]; try discriminate. intros H.
  inversion Hv; subst. eapply cast_over; [|exact H]. assumption.
Qed.
Lemma table_over : Forall row_over (table O).
Proof.
  unfold table.
  repeat (first [apply Forall_cons; [apply str_funcs_over|]|apply Forall_cons|apply Forall_nil]);
    unfold row_over; cbn [fst snd];
    repeat (first [apply Forall_nil|apply Forall_cons]); intros seed vs v Hv H; cbn [fst snd] in *.
  all: try (exact (to_over _ _ _ _ Hv H)).
  - unfold impl_normalize in H. destruct vs as [|[] [|]]; try discriminate H. exact (new_ident_over _ _ H).
  - unfold impl_normalize2_ident in H. destruct vs as [|[] [|]]; try discriminate H. exact (new_ident_over _ _ H).
  - unfold impl_normalize2_str in H. destruct vs as [|[] [|]]; try discriminate H. exact (new_ident_over _ _ H).
  - unfold impl_normalize2_int in H. destruct vs as [|[] [|]]; try discriminate H. exact (new_ident_over _ _ H).
  - unfold impl_normalize2_path in H. destruct vs as [|[] [|]]; try discriminate H. exact (new_ident_over _ _ H).
  - unfold impl_normalize2_type in H. destruct vs as [|[] [|]]; try discriminate H. exact (new_ident_over _ _ H).
  - unfold impl_normalize2_expr in H. destruct vs as [|[] [|]]; try discriminate H. exact (new_ident_over _ _ H).
  - unfold impl_normalize2_tokens in H. destruct vs as [|[] [|]]; try discriminate H. exact (new_ident_over _ _ H).
  - unfold impl_hash_str in H. destruct vs as [|[] [|]]; try discriminate H. injection H as <-. apply over_lit.
  - unfold impl_hash_ident in H. destruct vs as [|[] [|]]; try discriminate H. exact (new_ident_over _ _ H).
  - unfold impl_hash_tokens in H. destruct vs as [|[] [|]]; try discriminate H. exact (new_ident_over _ _ H).
  - unfold impl_concat_idents in H. destruct (collect_args _ vs) as [l|]; [|discriminate]. exact (new_ident_over _ _ H).
  - unfold impl_concat_ident_tokens in H. destruct vs as [|v0 vs]; [discriminate|].
    destruct (collect_args _ vs) as [l|]; [|discriminate]. destruct (parse_str_ident O _) as [x|] eqn:Ex; [|discriminate]. injection H as <-.
    apply over_ident, HQ. right. eauto.
  - unfold impl_concat_strs in H. destruct (collect_args _ vs) as [l|]; [|discriminate]. injection H as <-. apply over_lit.
  - unfold impl_concat_ints in H. destruct (collect_args _ vs) as [l|]; [|discriminate].
    destruct (lit_int_new O _) as [[d r]|]; [|discriminate]. injection H as <-. apply over_lit.
  - unfold impl_concat_tokens in H. destruct (collect_args _ vs) as [l|] eqn:E; [|discriminate]. injection H as <-.
    apply over_concat. eapply collect_over; eassumption.
  - unfold impl_to_tokens in H. destruct vs as [|[] [|]]; try discriminate H. injection H as <-. inversion Hv; assumption.
  - unfold impl_raw in H. destruct vs as [|[] [|]]; try discriminate H. injection H as <-. inversion Hv; assumption.
Qed.
Lemma builtin_over seed id name fs f sd vs v : get_func_variants (new_initialized O seed id) name = Some fs -> In f fs ->
  Forall value_over vs -> f_impl f sd vs = Ok v -> value_over v.
Proof.
  intros Hg Hf Ho Hv. apply number_rows_assoc in Hg as (k & rs & Hin & ->). apply number_variants_in in Hf as [Hf _].
  pose proof table_over as H. rewrite Forall_forall in H. specialize (H _ Hin). unfold row_over in H.
  rewrite Forall_forall in H. exact (H _ Hf sd vs v Ho Hv).
Qed.

Section Run.
Context (seed id : N).
Let env := new_initialized O seed id.

Lemma elab_over G e : expr_over e -> forall ex te d sd ctx v, elab env G e ex = inl (te, d) ->
  (forall x w, assoc_str x ctx = Some w -> value_over w) -> run O sd ctx te = Ok v -> value_over v.
Proof.
  induction e as [eid v0|eid name args raw IH] using expr_ind'; intros Hov ex te d sd ctx v He Hctx Hr.
  - cbn [elab] in He. destruct (coercion_cost _ _); [|discriminate]. injection He as <- <-. cbn [run] in Hr.
    set (v' := match v0 with VIdent x => match assoc_str x ctx with Some w => w | None => v0 end | _ => v0 end) in *.
    assert (Hv' : value_over v').
    { unfold v'. destruct v0 as [x| | | | | | | ]; try exact Hov. destruct (assoc_str x ctx) as [w|] eqn:Ex; [exact (Hctx _ _ Ex)|exact Hov]. }
    destruct (try_cast O v' _) as [w| |] eqn:Et; cbn [coerced] in Hr; try discriminate Hr. injection Hr as ->.
    eapply cast_over; eassumption.
  - cbn [elab] in He. destruct (get_func_variants env name) as [fs|] eqn:Eg; [|discriminate].
    destruct (best _) as [[[d0 f] tes]|] eqn:E; [|discriminate]. injection He as <- <-.
    apply best_in, viable_in in E as [Hf E]. cbn [run] in Hr.
    destruct (mapM (run O sd ctx) tes) as [vs| |] eqn:Em; cbn [bind] in Hr; try discriminate Hr.
    destruct (f_impl f sd vs) as [r| |] eqn:Ei; cbn [bind] in Hr; try discriminate Hr.
    eapply cast_over; [|exact Hr]. eapply (builtin_over seed id name fs f sd vs r Eg Hf); [|exact Ei]. clear Hr Ei.
    destruct Hov as [Hargs Hraw]. apply all_over in Hargs.
    apply VisitorProofs.mapM_ok in Em.
    apply elab_func_inv in E as (c0 & _ & [(ts & _ & Hr & _ & ->)|(_ & ps & c' & Hp & Ha & _)]).
    + destruct raw as [[rid rts]|]; cbn [option_map] in Hr; [|discriminate]. injection Hr as ->.
      inversion Em as [|? v1 ? vs1 H1 H2]; subst. inversion H2; subst. cbn in H1. injection H1 as <-. constructor; [exact Hraw|constructor].
    + apply elab_args_inv in Ha; [|rewrite (params_length _ _ _ Hp), map_length; reflexivity].
      apply params_length in Hp. rewrite map_length in Hp. clear - IH Ha Em Hctx Hp Hargs.
      revert ps tes vs Ha Em Hp. induction IH as [|a args Ha0 _ IHargs]; intros ps tes vs Ha Em Hp.
      * destruct ps; [|discriminate Hp]. inversion Ha; subst. inversion Em; subst. constructor.
      * destruct ps as [|pt ps]; [discriminate Hp|]. cbn [map combine] in Ha. inversion Ha as [|? te ? tes1 (d1 & H1) H2]; subst.
        inversion Em as [|? v1 ? vs1 H3 H4]; subst. cbn [fst snd] in H1. inversion Hargs; subst.
        constructor; [eapply Ha0; eassumption|]. eapply IHargs; [assumption|exact H2|exact H4|injection Hp; auto].
Qed.

Lemma items_over items : Forall (fun it : spec_item => expr_over (snd it)) items -> forall G sd ctx tis bs, elab_items env G items = Ok tis ->
  (forall x w, assoc_str x ctx = Some w -> value_over w) -> run_items O sd ctx tis = Ok bs ->
  forall x v, In (x, v) bs -> value_over v.
Proof.
  induction 1 as [|[name e] items Hov _ IH]; intros G sd ctx tis bs He Hctx Hr x v Hin; cbn [elab_items] in He.
  - injection He as <-. cbn in Hr. injection Hr as <-. destruct Hin.
  - destruct (elab env G e None) as [[te d]|] eqn:Ee; [|discriminate]. destruct (assoc_str name G); [discriminate|].
    destruct (elab_items env ((name, target_of te) :: G) items) as [tis'| |] eqn:Et; cbn [bind] in He; try discriminate He.
    injection He as <-. cbn [run_items] in Hr.
    destruct (run O sd ctx te) as [w| |] eqn:Ew; cbn [bind] in Hr; try discriminate Hr.
    destruct (run_items O sd _ tis') as [bs'| |] eqn:Eb; cbn [bind] in Hr; try discriminate Hr. injection Hr as <-.
    pose proof (elab_over _ _ Hov _ _ _ _ _ _ Ee Hctx Ew) as Hw.
    destruct Hin as [E|Hin]; [injection E as <- <-; exact Hw|].
    refine (IH _ _ _ _ _ Et _ Eb _ _ Hin).
    intros y u. cbn [assoc_str]. destruct (str_eqb y name); [intros Hu; injection Hu as <-; exact Hw|apply Hctx].
Qed.
Lemma bindings_over items bs x v : Forall (fun it : spec_item => expr_over (snd it)) items -> bindings O env items = Ok bs ->
  In (x, v) bs -> value_over v.
Proof.
  intros Hov. unfold bindings. destruct (elab_items env [] items) as [tis| |] eqn:E; cbn [bind]; try discriminate. intros Hr Hin.
  refine (items_over _ Hov _ _ _ _ _ E _ Hr _ _ Hin). intros y w Hy. discriminate Hy.
Qed.
End Run.
End Values.

(** ** Definitions without calls *)
Section Plain.
Context (O : oracles) (seed id : N).
Let env := new_initialized O seed id.
Lemma plain_items items : Forall (fun it : spec_item => expr_over (snd it) /\ exists k v, snd it = EValue k v) items ->
  forall G sd ctx tis bs, elab_items env G items = Ok tis ->
  (forall x, match assoc_str x G with Some t => exists w, assoc_str x ctx = Some w /\ type_of w = t /\ value_over w | None => assoc_str x ctx = None end) ->
  run_items O sd ctx tis = Ok bs -> forall x v, In (x, v) bs -> value_over v.
Proof.
  induction 1 as [|[name e] items [Hov (k & v0 & Hp)] _ IH]; intros G sd ctx tis bs He Hctx Hr x v Hin; cbn [elab_items snd] in *.
  - injection He as <-. cbn in Hr. injection Hr as <-. destruct Hin.
  - subst e. cbn [elab] in He. destruct (coercion_cost _ _); [|discriminate He]. destruct (assoc_str name G) eqn:En; [discriminate|].
    destruct (elab_items env _ items) as [tis'| |] eqn:Et; cbn [bind] in He; try discriminate He.
    injection He as <-. cbn [run_items run] in Hr. cbn [target_of] in Et.
    set (v' := match v0 with VIdent x => match assoc_str x ctx with Some w => w | None => v0 end | _ => v0 end) in *.
    assert (Hv' : value_over v' /\ type_of v' = static_type G v0).
    { unfold v', static_type. destruct v0 as [y| | | | | | | ]; try (split; [exact Hov|reflexivity]).
      specialize (Hctx y). destruct (assoc_str y G) as [t|].
      - destruct Hctx as (w & -> & Hw & Hw'). split; assumption.
      - rewrite Hctx. split; [exact Hov|reflexivity]. }
    destruct Hv' as [Hv' Ht]. unfold try_cast in Hr. rewrite (proj2 (ty_eqb_eq _ _) Ht) in Hr. cbn [coerced bind] in Hr.
    destruct (run_items O sd _ tis') as [bs'| |] eqn:Eb; cbn [bind] in Hr; try discriminate Hr. injection Hr as <-.
    destruct Hin as [E|Hin]; [injection E as <- <-; exact Hv'|].
    refine (IH _ _ _ _ _ Et _ Eb _ _ Hin).
    intros y. cbn [assoc_str]. destruct (str_eqb y name); [exists v'; auto|apply Hctx].
Qed.
Lemma plain_bindings items bs x v : Forall (fun it : spec_item => expr_over (snd it) /\ exists k v, snd it = EValue k v) items ->
  bindings O env items = Ok bs -> In (x, v) bs -> value_over v.
Proof.
  intros Hov. unfold bindings. destruct (elab_items env [] items) as [tis| |] eqn:E; cbn [bind]; try discriminate. intros Hr Hin.
  refine (plain_items _ Hov _ _ _ _ _ E _ Hr _ _ Hin). intros y. reflexivity.
Qed.
End Plain.

(** ** The code *)
Lemma replaced_over O lookup ts : (forall x v, lookup x = Some v -> value_over v) -> over ts -> over (substituted O lookup ts).
Proof.
  intros Hl. unfold substituted, replaced_stream.
  assert (H1 : forall t, over [t] -> over (replaced (tokens_of lookup) (literal_of O lookup) t)).
  { induction t as [x|c j|l|d g IH] using tt_ind'; intros Ho; cbn [replaced].
    - unfold tokens_of, option_map. destruct (lookup x) as [v|] eqn:E; [exact (Hl _ _ E)|exact Ho].
    - exact Ho.
    - destruct (literal_of O lookup l); apply over_lit.
    - apply over_group. apply over_group in Ho. apply over_forall in Ho. clear - IH Ho.
      induction IH as [|t g Ht _ IHg]; [constructor|]. inversion Ho; subst. cbn [flat_map]. apply over_app. auto. }
  intros Ho. apply over_forall in Ho. induction Ho as [|t ts Ht _ IH]; [constructor|]. cbn [flat_map]. apply over_app. auto.
Qed.

Lemma each_over {A} (print : A -> list tt) (drop : A -> A) l : Forall (fun x => over (print x) -> over (print (drop x))) l ->
  over (flat_map print l) -> over (flat_map print (map drop l)).
Proof.
  induction 1 as [|x l Hx _ IH]; intros H; [exact H|]. cbn [flat_map map] in *. apply over_app in H as [H1 H2]. apply over_app. auto.
Qed.
Lemma dropped_over i : over (item_tokens i) -> over (item_tokens (drop_where i)).
Proof.
  apply (item_ind' (fun i => over (item_tokens i) -> over (item_tokens (drop_where i)))
    (fun s => over (stmt_tokens s) -> over (stmt_tokens (drop_where_stmt s)))
    (fun s => over (trait_item_tokens s) -> over (trait_item_tokens (drop_where_trait_item s)))
    (fun s => over (impl_item_tokens s) -> over (impl_item_tokens (drop_where_impl_item s)))); clear i.
  - intros a v s b IH H. cbn [item_tokens drop_where] in *. rewrite !over_app, over_group, over_app in *.
    pose proof (each_over _ _ _ IH). tauto.
  - intros a v x g f H. cbn [item_tokens drop_where g_where g_params no_where_generics] in *. destruct f; rewrite !over_app in *; pose proof over_nil; tauto.
  - intros a v x g l t H. cbn [item_tokens drop_where g_where g_params no_where_generics] in *. rewrite !over_app in *; pose proof over_nil; tauto.
  - intros a v x g l t H. cbn [item_tokens drop_where g_where g_params no_where_generics] in *. rewrite !over_app in *; pose proof over_nil; tauto.
  - intros a v u au x g s t l IH H. cbn [item_tokens drop_where g_where g_params no_where_generics] in *. rewrite !over_app, over_group, over_app in *.
    pose proof (each_over _ _ _ IH). pose proof over_nil. tauto.
  - intros a d u g tr ty l IH H. cbn [item_tokens drop_where g_where g_params no_where_generics] in *. rewrite !over_app, over_group, over_app in *.
    pose proof (each_over _ _ _ IH). pose proof over_nil. tauto.
  - intros a v u x l IH H. cbn [item_tokens drop_where] in *. rewrite !over_app, over_group, over_app in *. pose proof (each_over _ _ _ IH). tauto.
  - auto.
  - auto.
  - auto.
  - auto.
  - auto.
  - intros a s b IH H. cbn [trait_item_tokens drop_where_trait_item] in *. rewrite !over_app, over_group, over_app in *. pose proof (each_over _ _ _ IH). tauto.
  - auto.
  - auto.
  - intros a v d s b IH H. cbn [impl_item_tokens drop_where_impl_item] in *. rewrite !over_app, over_group, over_app in *. pose proof (each_over _ _ _ IH). tauto.
  - auto.
Qed.
Lemma block_over l : over (block_tokens l) -> over (block_tokens (map drop_where_stmt l)).
Proof.
  apply each_over. apply Forall_forall. intros [i|ts] _; [apply dropped_over|auto].
Qed.
Lemma pieces_over f l : (forall ts, over ts -> over (f ts)) -> over (pieces_code (fun ts => ts) l) -> over (pieces_code f l).
Proof.
  intros Hf. assert (H1 : forall p, over (piece_code (fun ts => ts) p) -> over (piece_code f p)).
  { intros p. induction p as [x|ts|d g IH] using piece_ind'; cbn [piece_code]; intros H; [exact H|exact (Hf _ H)|]. apply over_group. apply over_group in H.
    induction IH as [|p g Hp _ IHg]; [constructor|]. cbn [flat_map] in *. apply over_app in H as [H1 H2]. apply over_app. auto. }
  unfold pieces_code. induction l as [|p l IH]; [auto|]. cbn [flat_map]. rewrite !over_app. intros [H2 H3]. auto.
Qed.

(** ** The warnings *)
Lemma attribute_over w : Forall Q warning_words -> over (attr_tokens (to_attribute w)).
Proof. intros H. unfold warning_words in H. cbn [map] in H. repeat match goal with H : Forall _ (_ :: _) |- _ => inversion H; subst; clear H end. repeat constructor; assumption. Qed.
Lemma attrs_over a b : over (attrs_tokens (a ++ b)) <-> over (attrs_tokens a) /\ over (attrs_tokens b).
Proof. unfold attrs_tokens. rewrite flat_map_app. apply over_app. Qed.
Lemma process_over prefix ws a b : Forall Q warning_words -> over (attrs_tokens a) -> over (attrs_tokens (snd (process_deprecations prefix ws a b))).
Proof.
  intros Hw Ha. unfold process_deprecations. destruct (pop ws) as [[w ws']|]; [|exact Ha].
  destruct (existsb _ a || b)%bool; [exact Ha|]. cbn [snd]. apply attrs_over. split; [exact Ha|]. unfold attrs_tokens. cbn [flat_map]. rewrite app_nil_r.
  apply attribute_over, Hw.
Qed.
Lemma visited_over prefix t : Forall Q warning_words -> forall ws, over (tree_tokens t) -> over (tree_tokens (snd (visit_tree prefix ws t))).
Proof.
  intros Hw. assert (Each : forall l, Forall (fun t => forall ws, over (tree_tokens t) -> over (tree_tokens (snd (visit_tree prefix ws t)))) l ->
    forall ws, over (flat_map tree_tokens l) -> over (flat_map tree_tokens (snd (visit_each (visit_tree prefix) ws l)))).
  { induction 1 as [|u l Hu _ IH]; intros ws H; [exact H|]. cbn [visit_each flat_map] in *. apply over_app in H as [H1 H2].
    specialize (Hu ws H1). destruct (visit_tree prefix ws u) as [ws1 u']. specialize (IH ws1 H2).
    destruct (visit_each _ ws1 l) as [ws2 l']. cbn [snd flat_map] in *. apply over_app. auto. }
  induction t as [t|d l IH|a b l IH] using tree_ind'; intros ws H; cbn [visit_tree].
  - exact H.
  - specialize (Each l IH ws). cbn [tree_tokens] in H. apply over_group in H. specialize (Each H).
    destruct (visit_each _ ws l) as [ws' l']. cbn [snd tree_tokens] in *. apply over_group. exact Each.
  - cbn [tree_tokens] in H. apply over_app in H as [H1 H2]. pose proof (process_over prefix ws a b Hw H1) as Ha.
    destruct (process_deprecations prefix ws a b) as [ws1 a']. specialize (Each l IH ws1 H2).
    destruct (visit_each _ ws1 l) as [ws2 l']. cbn [snd tree_tokens] in *. apply over_app. auto.
Qed.
Lemma warned_over Y prefix ws ts : covers Y -> (ws <> [] -> Forall Q warning_words) -> over ts -> over (with_warnings Y prefix ws ts).
Proof.
  intros Hc Hw Ho. unfold with_warnings, emit. cbn [warnings s_prefix]. destruct ws as [|w ws]; [rewrite Hc; exact Ho|].
  specialize (Hw ltac:(discriminate)). rewrite <- (Hc ts) in Ho. unfold forest_tokens in *. clear - Ho Hw.
  revert Ho. generalize (rev (w :: ws)). induction (as_forest Y ts) as [|u l IH]; intros v H; [exact H|]. cbn [visit_each flat_map] in *.
  apply over_app in H as [H1 H2]. pose proof (visited_over prefix u Hw v H1) as Hu. destruct (visit_tree prefix v u) as [v1 u'].
  specialize (IH v1 H2). destruct (visit_each _ v1 l) as [v2 l']. cbn [snd flat_map] in *. apply over_app. auto.
Qed.

(** ** Parsing *)
Section Parsed.
Context (O : oracles) (P : parsers) (HK : keeps_names O P) (hf : str -> bool).
Definition drawn_from (a : atok) : Prop :=
  over [a_tok a] /\
  (forall n n' es, a_args a n = (n', es) -> Forall expr_over es) /\
  (forall n n' o, a_tuple a n = (n', o) -> Forall expr_over (match o with Some (t, _) => flat_map tuple_exprs t | None => [] end)).
Lemma drawn_toks l : Forall drawn_from l -> over (toks l).
Proof. induction 1 as [|a l (Ha & _) _ IH]; [constructor|]. apply over_cons. auto. Qed.

Lemma attempt_over term ts o v k u : over ts -> In o (attempts P ts) -> try_parse term ts o = Some (v, k, u) -> value_over v.
Proof.
  intros Ho Hin Ht. unfold try_parse in Ht. destruct o as [[[v0 k0] u0]|]; [|discriminate].
  destruct (ends term (skipn k0 ts)); [|discriminate]. injection Ht as -> -> ->.
  unfold attempts in Hin. cbn [In] in Hin. destruct Hin as [E|[E|[E|[E|[E|[E|[E|[]]]]]]]].
  - unfold lit_int_candidate in E. destruct (pre_lit_int P ts) as [[[d r] j]|]; [|discriminate]. injection E as <- _ _. apply over_lit.
  - unfold lit_str_candidate in E. destruct (pre_lit_str P ts) as [[[d r] j]|]; [|discriminate]. injection E as <- _ _. apply over_lit.
  - unfold underscore_candidate in E. destruct ts as [|t ts]; [discriminate|]. apply over_cons in Ho as [Ho _].
    destruct (is_word [95%N] t) eqn:E1; cbn [orb] in E.
    + injection E as <- _ _. unfold is_word in E1. destruct t; try discriminate E1. apply str_eqb_eq in E1. subst. exact Ho.
    + destruct (is_punct 95%N t) eqn:E2; [|discriminate]. injection E as <- _ _. unfold is_punct in E2. destruct t as [|c j| |]; try discriminate E2.
      apply N.eqb_eq in E2. subst c. exact Ho.
  - unfold ident_candidate in E. destruct ts as [|[x| | |] ts]; try discriminate E. destruct (ident_allowed P x); [|discriminate].
    injection E as <- _ _. apply over_cons in Ho as [Ho _]. exact Ho.
  - unfold node_candidate in E. destruct (pre_path P ts) as [[[r j] w]|] eqn:Ep; [|discriminate]. injection E as <- _ _.
    eapply over_incl; [exact (kept_pre_path O P HK _ _ _ _ Ep)|exact Ho].
  - unfold node_candidate in E. destruct (pre_type P ts) as [[[r j] w]|] eqn:Ep; [|discriminate]. injection E as <- _ _.
    eapply over_incl; [exact (kept_pre_type O P HK _ _ _ _ Ep)|exact Ho].
  - unfold node_candidate in E. destruct (pre_expr P ts) as [[[r j] w]|] eqn:Ep; [|discriminate]. injection E as <- _ _.
    eapply over_incl; [exact (kept_pre_expr O P HK _ _ _ _ Ep)|exact Ho].
Qed.
Lemma until_over term ts : over ts -> over (until term ts).
Proof.
  induction ts as [|t ts IH]; intros H; cbn [until]; [exact H|]. apply over_cons in H as [H1 H2]. destruct (term t); [constructor|].
  apply over_cons. auto.
Qed.
Lemma value_parsed_over term n ts n' e k u : over ts -> parse_value P term n ts = (n', (e, k, u)) -> expr_over e.
Proof.
  intros Ho. unfold parse_value.
  assert (H : forall l n best, (forall o, In o l -> In o (attempts P ts)) ->
    (match best with Some (_, (e, _, _)) => expr_over e | None => True end) ->
    match snd (fold_left (attempt term ts) l (n, best)) with Some (_, (e, _, _)) => expr_over e | None => True end).
  { induction l as [|o l IH]; intros m best Hl Hb; [exact Hb|]. cbn [fold_left].
    assert (Hs : match snd (attempt term ts (m, best) o) with Some (_, (e, _, _)) => expr_over e | None => True end).
    { unfold attempt. destruct (try_parse term ts o) as [[[v j] w]|] eqn:Et; [|exact Hb].
      assert (Hv : expr_over (EValue m v)) by (cbn [expr_over]; eapply attempt_over; [exact Ho|apply Hl; left; reflexivity|exact Et]).
      destruct best as [[mx r]|]; [destruct (Nat.ltb _ _); [exact Hv|exact Hb]|exact Hv]. }
    destruct (attempt term ts (m, best) o) as [m1 b1]. apply IH; [intros o' Ho'; apply Hl; right; exact Ho'|exact Hs]. }
  specialize (H (attempts P ts) n None (fun _ h => h) I).
  destruct (fold_left _ _ _) as [m [[w [[e1 k1] u1]]|]]; cbn [snd] in H; intros E; injection E as <- <- <- <-; [exact H|].
  cbn [expr_over]. apply until_over, Ho.
Qed.

Lemma expr_parsed_over n l n' e k u : Forall drawn_from l -> Parse.parse_expr P hf n l = (n', (e, k, u)) -> expr_over e.
Proof.
  intros Hg H. unfold Parse.parse_expr in H. destruct (parse_call P hf n l) as [[n1 [e1 k1]]|] eqn:E.
  - injection H as <- <- <- <-. unfold parse_call in E.
    destruct l as [|[[x|c j|lt|d ts] f1 f2 f3] [|[[y|c' j'|lt'|[| | |] inner] g1 g2 g3] l]]; try discriminate E.
    destruct (ident_allowed P x && hf x)%bool; [|discriminate E]. cbn [a_args] in E. destruct (g1 n) as [n2 args] eqn:Ea. injection E as <- <- <-.
    inversion Hg as [|? ? _ Hg1]; subst. inversion Hg1 as [|? ? (Ht & Hga & _) _]; subst. cbn [expr_over]. split.
    + apply all_over. exact (Hga _ _ _ Ea).
    + apply over_group in Ht. exact Ht.
  - eapply value_parsed_over; [apply drawn_toks; exact Hg|exact H].
Qed.

Section Terminated.
Context {A : Type} (item : N -> list atok -> N * option (A * nat)) (exprs : A -> list expr).
Hypothesis Hitem : forall n l n' o, Forall drawn_from l -> item n l = (n', o) ->
  Forall expr_over (match o with Some (a, _) => exprs a | None => [] end).
Lemma terminated_over l : Forall drawn_from l -> forall skip n n' o, parse_terminated item l skip n = (n', o) ->
  Forall expr_over (match o with Some as_ => flat_map exprs as_ | None => [] end).
Proof.
  induction 1 as [|t r Ht Hr IH]; intros skip n n' o H; cbn [parse_terminated] in H.
  - injection H as <- <-. constructor.
  - destruct skip as [[|k]|].
    + destruct (is_comma (a_tok t)); [eapply IH; exact H|]. injection H as <- <-. constructor.
    + eapply IH; exact H.
    + destruct (item n (t :: r)) as [n1 [[a k]|]] eqn:E.
      * pose proof (Hitem _ _ _ _ (Forall_cons _ Ht Hr) E) as Ha. cbn in Ha.
        set (c := match k with 0 => _ | S k' => _ end) in H.
        assert (Hc : let '(n2, rest) := c in Forall expr_over (match rest with Some as_ => flat_map exprs as_ | None => [] end)).
        { subst c. destruct k as [|k].
          - destruct (is_comma (a_tok t)).
            + destruct (parse_terminated item r None n1) as [n2 rest] eqn:E2. eapply IH; exact E2.
            + constructor.
          - destruct (parse_terminated item r (Some k) n1) as [n2 rest] eqn:E2. eapply IH; exact E2. }
        destruct c as [n2 rest]. injection H as <- <-. destruct rest as [as_|]; cbn [option_map flat_map]; [|constructor].
        apply Forall_app. auto.
      * injection H as <- <-. constructor.
Qed.
End Terminated.

Lemma auntil_over term l : Forall drawn_from l -> Forall drawn_from (auntil term l).
Proof. induction 1 as [|t r Ht Hr IH]; [constructor|]. cbn. destruct (term (a_tok t)); constructor; auto. Qed.
Lemma args_parsed_over l n n' es : Forall drawn_from l -> parse_args P hf l n = (n', es) -> Forall expr_over es.
Proof.
  intros Hg H. unfold parse_args in H. destruct (parse_terminated (parse_arg P hf) l None n) as [n1 o] eqn:E.
  assert (Hd : Forall expr_over (match o with Some as_ => flat_map (fun e => [e]) as_ | None => [] end)).
  { eapply terminated_over; [|exact Hg|exact E]. intros m l' m' o' Hl Hi. unfold parse_arg in Hi.
    destruct (Parse.parse_expr P hf m (auntil is_comma l')) as [m1 [[e k] u]] eqn:Ee.
    pose proof (expr_parsed_over _ _ _ _ _ _ (auntil_over is_comma l' Hl) Ee) as He.
    destruct (skipn k (auntil is_comma l')); [destruct u|]; injection Hi as <- <-; repeat constructor. exact He. }
  destruct o as [as_|]; injection H as <- <-; [|exact Hd].
  replace (flat_map (fun e : expr => [e]) as_) with as_ in Hd; [exact Hd|].
  clear. induction as_ as [|a l IH]; [reflexivity|]. cbn. rewrite <- IH. reflexivity.
Qed.
Lemma tuple_parsed_over l n n' o : Forall drawn_from l -> parse_tuple P hf l n = (n', o) ->
  Forall expr_over (match o with Some (t, _) => flat_map tuple_exprs t | None => [] end).
Proof.
  intros Hg H. unfold parse_tuple in H. destruct (parse_terminated (parse_tuple_value P hf) l None n) as [n1 o1] eqn:E. injection H as <- <-.
  assert (Hd : Forall expr_over (match o1 with Some as_ => flat_map (fun p : tuple_value expr * bool => tuple_exprs (fst p)) as_ | None => [] end)).
  { eapply terminated_over; [|exact Hg|exact E]. intros m l' m' o' Hl Hi. unfold parse_tuple_value in Hi.
    assert (Ex : match Parse.parse_expr P hf m l' with (n', (e, k, u)) => (n', Some (TVValue e, u, k)) end = (m', o') ->
       Forall expr_over (match o' with Some (a, _) => tuple_exprs (fst a) | None => [] end)).
    { destruct (Parse.parse_expr P hf m l') as [m1 [[e k] u]] eqn:Ee. intros H. injection H as <- <-. cbn. repeat constructor. eapply expr_parsed_over; eassumption. }
    destruct l' as [|[[x|c j|lt|[| | |] inner] f1 f2 f3] l']; try (exact (Ex Hi)).
    inversion Hl as [|? ? (_ & _ & Ht) _]; subst. cbn [a_tuple] in *. destruct (f2 m) as [m1 [[t u]|]] eqn:Et; injection Hi as <- <-;
      exact (Ht _ _ _ Et). }
  destruct o1 as [as_|]; [|exact Hd]. cbn [option_map any_unexpected fst].
  replace (flat_map tuple_exprs (map fst as_)) with (flat_map (fun p : tuple_value expr * bool => tuple_exprs (fst p)) as_); [exact Hd|].
  clear. induction as_ as [|a l IH]; [reflexivity|]. cbn. rewrite <- IH. reflexivity.
Qed.
Lemma ann_tok t : a_tok (ann P hf t) = t.
Proof. destruct t as [x|c j|l|[| | |] ts]; reflexivity. Qed.
Lemma ann_over t : over [t] -> drawn_from (ann P hf t).
Proof.
  assert (Triv : forall t, over [t] -> drawn_from {| a_tok := t; a_args := fun n => (n, []); a_tuple := fun n => (n, None); a_pattern := None |}).
  { clear t. intros t Ht. split; [exact Ht|]. split; cbn; intros n n' o H; injection H as <- <-; constructor. }
  induction t as [x|c j|l|d ts IH] using tt_ind'; intros Ho; cbn [ann]; try (apply Triv; exact Ho).
  destruct d; try (apply Triv; exact Ho).
  assert (Hg : Forall drawn_from (map (ann P hf) ts)).
  { apply over_group in Ho. apply over_forall in Ho. clear - IH Ho. induction IH; inversion Ho; subst; constructor; auto. }
  split; [exact Ho|]. split; cbn [a_args a_tuple]; intros n n' o H; [eapply args_parsed_over|eapply tuple_parsed_over]; eassumption.
Qed.
Lemma anns_over ts : over ts -> Forall drawn_from (map (ann P hf) ts).
Proof. intros H. apply over_forall in H. induction H; constructor; auto. apply ann_over. assumption. Qed.

Lemma spec_item_over n l n' o : Forall drawn_from l -> parse_spec_item P hf n l = (n', o) ->
  Forall expr_over (match o with Some ((_, e), _, _) => [e] | None => [] end).
Proof.
  intros Hg H. unfold parse_spec_item in H.
  destruct l as [|[[x|c j|lt|d ts] f1 f2 f3] [|eq r]]; try (injection H as <- <-; constructor).
  destruct (ident_allowed P x && is_equals (a_tok eq))%bool; [|injection H as <- <-; constructor].
  destruct (Parse.parse_expr P hf n r) as [n1 [[e k] u]] eqn:Ee.
  assert (Hr : Forall drawn_from r) by (inversion Hg as [|? ? _ H1]; inversion H1; assumption).
  pose proof (expr_parsed_over _ _ _ _ _ _ Hr Ee) as He.
  destruct (ends is_separator (toks (skipn k r))); injection H as <- <-; repeat constructor. exact He.
Qed.
Lemma spec_over l : Forall drawn_from l -> forall skip used n n' o, parse_spec P hf l skip used n = (n', o) ->
  match o with Some (items, _, rest, _) => Forall expr_over (map snd items) /\ Forall drawn_from rest | None => True end.
Proof.
  induction 1 as [|t r Ht Hr IH]; intros skip used n n' o H; cbn [parse_spec] in H.
  - destruct skip as [[|k]|]; injection H as <- <-; try exact I; split; constructor.
  - destruct skip as [[|k]|].
    + destruct (is_separator (a_tok t)); [|injection H as <- <-; exact I].
      destruct (match used with Some u => _ | None => _ end); [injection H as <- <-; exact I|].
      destruct (peek_ident P r); [eapply IH; exact H|injection H as <- <-; split; [constructor|exact Hr]].
    + eapply IH; exact H.
    + destruct (parse_spec_item P hf n (t :: r)) as [n1 o1] eqn:Ei.
      pose proof (spec_item_over _ _ _ _ (Forall_cons _ Ht Hr) Ei) as Hi.
      destruct o1 as [[[[x e] [|k]] u]|]; try (injection H as <- <-; exact I).
      destruct (parse_spec P hf r (Some k) used n1) as [n2 rest] eqn:E2. injection H as <- <-.
      specialize (IH _ _ _ _ _ E2). destruct rest as [[[[items used'] rest'] u']|]; cbn [option_map map snd]; [|exact I].
      destruct IH as [H1 H2]. split; [constructor; [inversion Hi; assumption|exact H1]|exact H2].
Qed.
Lemma source_list_over n t n' o : over [a_tok t] -> parse_source_list P hf n t = (n', o) ->
  Forall expr_over (match o with Some (vs, _) => flat_map source_exprs vs | None => [] end).
Proof.
  intros Ho. unfold parse_source_list. destruct (a_tok t) as [x|c j|lt|[| | |] ts]; try (intros H; injection H as <- <-; constructor).
  destruct (parse_terminated (parse_source_value P hf) (map (ann P hf) ts) None n) as [n1 o1] eqn:E. intros H. injection H as <- <-.
  assert (Hd : Forall expr_over (match o1 with Some as_ => flat_map (fun p : loop_source_value * bool => source_exprs (fst p)) as_ | None => [] end)).
  { eapply terminated_over; [|apply anns_over; apply over_group in Ho; exact Ho|exact E]. clear - HK. intros m l' m' o' Hl Hi. unfold parse_source_value in Hi.
    assert (Ex : forall m1, match Parse.parse_expr P hf m1 l' with (n', (e, k, u)) => (n', Some (LSValue e, u, k)) end = (m', o') ->
       Forall expr_over (match o' with Some (a, _) => source_exprs (fst a) | None => [] end)).
    { intros m1. destruct (Parse.parse_expr P hf m1 l') as [m2 [[e k] u]] eqn:Ee. intros H. injection H as <- <-. cbn. repeat constructor. eapply expr_parsed_over; eassumption. }
    destruct l' as [|[[x|c j|lt|[| | |] inner] f1 f2 f3] l']; try (exact (Ex _ Hi)).
    inversion Hl as [|? ? (_ & _ & Ht) _]; subst. cbn [a_tuple] in *.
    destruct (f2 m) as [m1 [[t u]|]] eqn:Et.
    - injection Hi as <- <-. exact (Ht _ _ _ Et).
    - exact (Ex _ Hi). }
  destruct o1 as [as_|]; [|exact Hd]. cbn [option_map any_unexpected fst].
  replace (flat_map source_exprs (map fst as_)) with (flat_map (fun p : loop_source_value * bool => source_exprs (fst p)) as_); [exact Hd|].
  clear. induction as_ as [|a l IH]; [reflexivity|]. cbn. rewrite <- IH. reflexivity.
Qed.
Lemma loops_over l : Forall drawn_from l -> forall n n' o, parse_loops P hf l n = (n', o) ->
  match o with Some (items, rest, _) => Forall expr_over (flat_map loop_exprs items) /\ Forall drawn_from rest | None => True end.
Proof.
  remember (List.length l) as len eqn:Hlen. assert (Hle : List.length l <= len) by lia. clear Hlen. revert l Hle.
  induction len as [|len IH]; intros l Hle Hg n n' o H.
  - destruct l; [|cbn in Hle; lia]. injection H as <- <-. split; constructor.
  - destruct l as [|f r0]; cbn [parse_loops] in H.
    { injection H as <- <-. split; constructor. }
    destruct (is_word (txt "for") (a_tok f)).
    2:{ injection H as <- <-. split; [constructor|exact Hg]. }
    destruct r0 as [|pat [|kw [|src r]]]; try (injection H as <- <-; exact I).
    destruct (parse_loop_alias P pat) as [al|]; [|injection H as <- <-; exact I].
    destruct (is_word (txt "in") (a_tok kw)); [|injection H as <- <-; exact I].
    assert (Hr : drawn_from src /\ Forall drawn_from r) by (inversion Hg as [|? ? _ G1]; inversion G1 as [|? ? _ G2]; inversion G2 as [|? ? _ G3]; inversion G3; auto).
    destruct Hr as [(Hsrc & _) Hr].
    destruct (parse_source_list P hf n src) as [n1 o1] eqn:Es. pose proof (source_list_over _ _ _ _ Hsrc Es) as Hs.
    destruct o1 as [[vals u]|]; [|injection H as <- <-; exact I].
    destruct (parse_loops P hf r n1) as [n2 rest] eqn:Er. injection H as <- <-.
    pose proof (IH r ltac:(cbn in Hle; lia) Hr _ _ _ Er) as Hd.
    destruct rest as [[[items rest'] u']|]; cbn [option_map flat_map]; [|exact I]. destruct Hd as [H1 H2].
    split; [apply Forall_app; split; [exact Hs|exact H1]|exact H2].
Qed.
Lemma header_over n ts loops spec rest u : over ts -> parse_header P hf n (map (ann P hf) ts) = Some (loops, spec, rest, u) ->
  Forall expr_over (match loops with Some ls => flat_map loop_exprs ls | None => [] end ++
                     match spec with Some s => map snd (spec_items s) | None => [] end) /\ Forall drawn_from rest.
Proof.
  intros Ho. unfold parse_header. destruct (parse_loops P hf (map (ann P hf) ts) n) as [n1 o] eqn:El.
  pose proof (loops_over _ (anns_over ts Ho) _ _ _ El) as Hl.
  destruct o as [[[items l1] u1]|]; [|discriminate]. destruct Hl as [Hl Hrest].
  set (loops' := match items with [] => None | _ => Some items end).
  assert (Ex : match loops' with Some ls => flat_map loop_exprs ls | None => [] end = flat_map loop_exprs items)
    by (subst loops'; destruct items; reflexivity).
  destruct (peek_ident P l1).
  - destruct (parse_spec P hf l1 None None n1) as [n2 o2] eqn:Es. cbn [snd].
    pose proof (spec_over _ Hrest _ _ _ _ _ Es) as H2.
    destruct o2 as [[[[its used] l2] u2]|]; [|discriminate]. intros H. injection H as <- <- <- <-.
    rewrite Ex. destruct H2 as [H2 H3]. split; [apply Forall_app; split; [exact Hl|exact H2]|exact H3].
  - intros H. injection H as <- <- <- <-. rewrite Ex, app_nil_r. split; assumption.
Qed.
Lemma func_macro_over n ts ast : over ts -> p_ast (parse_func_macro P hf n ts) = Ok (Some ast) ->
  Forall expr_over (ast_exprs ast) /\ over (block_tokens (ast_block ast)).
Proof.
  intros Ho. unfold parse_func_macro. destruct (parse_header P hf n (map (ann P hf) ts)) as [[[[loops spec] l] u1]|] eqn:Eh; [|discriminate].
  apply header_over in Eh as [He Hl]; [|exact Ho].
  destruct (pre_block P (toks l)) as [[[block k] u2]|] eqn:Eb; [|discriminate].
  assert (Hb : over (block_tokens block)) by (eapply over_incl; [exact (kept_block O P HK _ _ _ _ Eb)|apply drawn_toks; exact Hl]).
  assert (Done : Ok (if (u1 || u2)%bool then None else Some {| ast_loops := loops; ast_spec := spec; ast_block := block |}) = Ok (Some ast) ->
    Forall expr_over (ast_exprs ast) /\ over (block_tokens (ast_block ast))).
  { destruct (u1 || u2)%bool; intros H; [discriminate|]. injection H as <-. split; assumption. }
  destruct (skipn k (toks l)) as [|t r]; [exact Done|].
  destruct (is_separator t && negb (trailing_mixed t spec))%bool; [|discriminate]. destruct r; [exact Done|discriminate].
Qed.
Lemma attr_macro_over n attr item ast : over attr -> over item -> p_ast (parse_attr_macro P hf n attr item) = Ok (Some ast) ->
  Forall expr_over (ast_exprs ast) /\ over (block_tokens (ast_block ast)).
Proof.
  intros Ho Hi. unfold parse_attr_macro. destruct (parse_header P hf n (map (ann P hf) attr)) as [[[[loops spec] l] u1]|] eqn:Eh; [|discriminate].
  apply header_over in Eh as [He Hl]; [|exact Ho].
  destruct (skip_separator loops spec (toks l)) as [[|? ?]|]; try discriminate. destruct u1; [discriminate|].
  destruct (pre_block P [TGroup Brace item]) as [[[block [|[|k]]] [|]]|] eqn:Eb; try discriminate. intros H. injection H as <-.
  split; [exact He|]. eapply over_incl; [exact (kept_block O P HK _ _ _ _ Eb)|apply over_group; exact Hi].
Qed.
Lemma use_parsed_over u ast : Forall Q (source_names (u_source u)) -> p_ast (inv_parsed (invocation_for O P u)) = Ok (Some ast) ->
  hf = known O -> Forall expr_over (ast_exprs ast) /\ over (block_tokens (ast_block ast)).
Proof.
  intros Hs Hp Hh. unfold invocation_for, invocation_of in Hp. cbn [inv_parsed] in Hp. rewrite <- Hh in Hp.
  destruct (u_source u) as [ts|ts|a b]; cbn [source_names] in Hs.
  - exact (func_macro_over _ _ _ Hs Hp).
  - exact (func_macro_over _ _ _ Hs Hp).
  - apply Forall_app in Hs as [H1 H2]. exact (attr_macro_over _ _ _ _ H1 H2 Hp).
Qed.
End Parsed.

(** ** Rounds *)
Lemma round_items {B} (ast : raw_ast B) (R : expr -> Prop) rs items : Forall R (ast_exprs ast) ->
  all_some (rounds ast) = Some rs -> In items rs -> Forall (fun it : spec_item => R (snd it)) items.
Proof.
  intros HR Hs Hin. apply (MeaningProofs.all_some_in _ _ _ Hs) in Hin. unfold rounds in Hin. unfold ast_exprs in HR. apply Forall_app in HR as [H1 H2].
  assert (Hown : Forall (fun it : spec_item => R (snd it)) (own_items ast)).
  { unfold own_items. destruct (ast_spec ast) as [s|]; [|constructor]. clear - H2. induction (spec_items s); inversion H2; constructor; auto. }
  destruct (ast_loops ast) as [loops|]; [|destruct Hin as [E|[]]; injection E as <-; exact Hown].
  apply in_map_iff in Hin as (c & E & Hc).
  destruct (all_matched (map loop_pattern loops) c) as [l|] eqn:Em; [|discriminate]. injection E as <-. apply Forall_app. split; [|exact Hown].
  assert (Hvals : Forall (fun v => Forall R (source_exprs v)) c).
  { assert (Hn : In c (nested_loops (map loop_values loops))) by (destruct loops; [destruct Hc|exact Hc]). clear - Hn H1. rename Hn into Hc.
    revert c Hc. induction loops as [|lp loops IH]; intros c Hc; cbn [map nested_loops] in Hc.
    - destruct Hc as [<-|[]]. constructor.
    - cbn [flat_map] in H1. apply Forall_app in H1 as [Ha Hb]. apply in_flat_map in Hc as (v & Hv & Hc). apply in_map_iff in Hc as (c' & <- & Hc').
      constructor; [|apply IH; assumption]. unfold loop_exprs in Ha. clear - Ha Hv. rewrite Forall_forall in *. intros e He. apply Ha. apply in_flat_map. eauto. }
  clear - Em Hvals. revert c l Em Hvals. induction (map loop_pattern loops) as [|p ps IH]; intros [|v vs] l Em Hv; cbn [all_matched] in Em;
    try (injection Em as <-; constructor).
  destruct (matched p v) as [a|] eqn:Ea; [|discriminate]. destruct (all_matched ps vs) as [b|] eqn:Eb; [|discriminate]. injection Em as <-.
  inversion Hv; subst. apply Forall_app. split; [|eapply IH; eassumption].
  apply Forall_forall. intros it Hit. apply (matched_from _ _ _ _ Ea) in Hit as [_ Hit]. rewrite Forall_forall in *. auto.
Qed.

(** ** Uses *)
Section Uses.
Context (O : oracles) (P : parsers) (Y : syntax).
Context (HF : faithful O (reparse Y)) (HC : covers Y) (HK : keeps_names O P).

Lemma meaning_over env finish ast ts : Forall (fun e => expr_over e /\ ((forall x, composed O x -> Q x) \/ exists k v, e = EValue k v)) (ast_exprs ast) ->
  over (block_tokens (ast_block ast)) -> (exists seed id, env = new_initialized O seed id) -> (forall ts, over ts -> over (finish ts)) ->
  kept_meaning O (reparse Y) env finish ast = Ok ts -> over ts.
Proof.
  intros He Hb (seed & id & ->) Hf. unfold kept_meaning. destruct (all_some (rounds ast)) as [rs|] eqn:Er; [|discriminate].
  destruct (mapM _ rs) as [codes| |] eqn:Em; cbn [bind]; try discriminate. intros H. injection H as <-.
  apply over_concat. apply VisitorProofs.mapM_ok in Em.
  assert (Hr : forall items, In items rs -> Forall (fun it : spec_item => expr_over (snd it) /\ ((forall x, composed O x -> Q x) \/ exists k v, snd it = EValue k v)) items)
    by (intros items Hin; exact (round_items ast _ rs items He Er Hin)).
  clear Er. induction Em as [|items code rs codes Hc Em IH]; [constructor|]. cbn [map]. constructor; [|apply IH; intros it Hit; apply Hr; right; exact Hit].
  apply Hf. specialize (Hr items (or_introl eq_refl)). unfold kept_outcome in Hc.
  destruct (bindings O (new_initialized O seed id) items) as [bs| |] eqn:Eb; cbn [bind] in Hc; try discriminate Hc.
  destruct (first_part_failure _ _ _ _) as [[]|]; try discriminate Hc. injection Hc as <-.
  apply pieces_over; [|rewrite block_printed; apply block_over; exact Hb]. intros ts0 Hts0. apply replaced_over; [|exact Hts0]. intros x v Hx. apply assoc_str_some_in in Hx.
  assert (Hor : (forall x, composed O x -> Q x) \/ Forall (fun it : spec_item => expr_over (snd it) /\ exists k v, snd it = EValue k v) items).
  { clear - Hr. induction Hr as [|it items (H1 & [H2|H2]) _ IH]; [right; constructor|left; exact H2|]. destruct IH as [IH|IH]; [left; exact IH|right; constructor; auto]. }
  destruct Hor as [HQ|Hp].
  - eapply (bindings_over O P HK (faithful_ident _ _ HF) HQ seed id items bs); [|exact Eb|exact Hx].
    eapply Forall_impl; [|exact Hr]. intros it (H & _). exact H.
  - exact (plain_bindings O seed id items bs x v Hp Eb Hx).
Qed.

Lemma use_over uses i u ast ts : nth_error uses i = Some u ->
  p_ast (inv_parsed (invocation_for O P u)) = Ok (Some ast) ->
  nth_error (expand_uses O P Y uses) i = Some (Code ts) ->
  Forall Q (source_names (u_source u)) ->
  (forall x, composed O x -> Q x) \/ plain_values ast ->
  (raised (invocation_for O P u) <> [] -> Forall Q warning_words) ->
  over ts.
Proof.
  intros Hu Hp Ho Hs HQ Hw. rewrite (use_kept O Y P uses i u ast HF Hu Hp) in Ho.
  match type of Ho with Some match ?m with _ => _ end = _ => destruct m as [ts'| |] eqn:Hm; try discriminate Ho end. injection Ho as ->.
  destruct (use_parsed_over O P HK (known O) u ast Hs Hp eq_refl) as [He Hb].
  eapply meaning_over; [|exact Hb| | |exact Hm].
  - apply Forall_forall. intros e Hin. rewrite Forall_forall in He. split; [exact (He e Hin)|]. destruct HQ as [HQ|HQ]; [left; exact HQ|right; exact (HQ e Hin)].
  - eauto.
  - intros ts' Hts. apply warned_over; [exact HC|exact Hw|exact Hts].
Qed.
End Uses.
End Over.

(** ** Consequences *)
Lemma use_origins O P Y uses i u ast ts : faithful O (reparse Y) -> covers Y -> keeps_names O P -> nth_error uses i = Some u ->
  p_ast (inv_parsed (invocation_for O P u)) = Ok (Some ast) ->
  nth_error (expand_uses O P Y uses) i = Some (Code ts) ->
  forall x, In x (names ts) ->
    In x (source_names (u_source u)) \/ composed O x \/ (raised (invocation_for O P u) <> [] /\ In x warning_words).
Proof.
  intros HF HC HK Hu Hp Ho. apply Forall_forall. eapply use_over; eauto.
  - apply Forall_forall. auto.
  - intros Hw. apply Forall_forall. auto.
Qed.
Lemma use_no_calls O P Y uses i u ast ts : faithful O (reparse Y) -> covers Y -> keeps_names O P -> nth_error uses i = Some u ->
  p_ast (inv_parsed (invocation_for O P u)) = Ok (Some ast) ->
  plain_values ast -> raised (invocation_for O P u) = [] ->
  nth_error (expand_uses O P Y uses) i = Some (Code ts) -> incl (names ts) (source_names (u_source u)).
Proof.
  intros HF HC HK Hu Hp Hv Hr Ho. assert (H : over (fun x => In x (source_names (u_source u))) ts).
  { eapply use_over; eauto; [apply Forall_forall; auto|rewrite Hr; intros []; reflexivity]. }
  unfold over in H. rewrite Forall_forall in H. exact H.
Qed.
Lemma use_valid O P Y uses i u ast ts (Q : str -> Prop) : faithful O (reparse Y) -> covers Y -> keeps_names O P -> nth_error uses i = Some u ->
  p_ast (inv_parsed (invocation_for O P u)) = Ok (Some ast) ->
  nth_error (expand_uses O P Y uses) i = Some (Code ts) ->
  (forall x, In x (source_names (u_source u)) -> Q x) -> (forall x, composed O x -> Q x) -> (forall x, In x warning_words -> Q x) ->
  forall x, In x (names ts) -> Q x.
Proof.
  intros HF HC HK Hu Hp Ho H1 H2 H3 x Hx. destruct (use_origins O P Y uses i u ast ts HF HC HK Hu Hp Ho x Hx) as [H|[H|[_ H]]]; auto.
Qed.
