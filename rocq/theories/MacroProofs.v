(** Proofs about whole uses of the macros. *)
From Coq Require Import String Permutation.
From Verif Require Import Base BaseFacts Token Types Values Ast Tuple Env Resolve Eval Expand SubstituteIdents Item AliasSubstitution
  Deprecation Interpreter Parse Macro SpecElab SpecProduct SpecTuple SpecSubst SpecParse SubstFacts ElabFacts ElabProofs BuiltinFacts ExpandProofs
  WalkerProofs VisitorProofs InterpreterProofs ParseProofs ParseIds ItemFacts.
Open Scope list_scope.

(** ** The definitions of a combination come from the source *)
Definition part_of {A} (l big : list A) : Prop := exists rest, Permutation big (l ++ rest).

Lemma part_nil {A} (l : list A) : part_of [] l.
Proof. exists l. reflexivity. Qed.
Lemma part_refl {A} (l : list A) : part_of l l.
Proof. exists []. rewrite app_nil_r. reflexivity. Qed.
Lemma part_app {A} (a b c d : list A) : part_of a b -> part_of c d -> part_of (a ++ c) (b ++ d).
Proof.
  intros (r & Hr) (s & Hs). exists (r ++ s). rewrite Hr, Hs, <- !app_assoc. apply Permutation_app_head.
  rewrite !app_assoc. apply Permutation_app_tail. apply Permutation_app_comm.
Qed.
Lemma part_trans {A} (a b c : list A) : part_of a b -> part_of b c -> part_of a c.
Proof. intros (r & Hr) (s & Hs). exists (r ++ s). rewrite Hs, Hr, app_assoc. reflexivity. Qed.
Lemma part_in {A} (x : A) (f : A -> list expr) l : In x l -> part_of (f x) (flat_map f l).
Proof.
  intros H. apply in_split in H as (a & b & ->). exists (flat_map f a ++ flat_map f b). rewrite flat_map_app. cbn [flat_map].
  rewrite !app_assoc. apply Permutation_app_tail. apply Permutation_app_comm.
Qed.
Lemma part_flat_map {A B} (f : A -> list B) l big : part_of l big -> part_of (flat_map f l) (flat_map f big).
Proof. intros (r & H). exists (flat_map f r). rewrite <- flat_map_app. apply Permutation_flat_map. exact H. Qed.
Lemma part_NoDup {A} (l big : list A) : part_of l big -> NoDup big -> NoDup l.
Proof. intros (r & H) Hn. apply (Permutation_NoDup H) in Hn. apply NoDup_app_disj in Hn as (Hn & _). exact Hn. Qed.
Lemma part_Forall {A} (Q : A -> Prop) l big : part_of l big -> Forall Q big -> Forall Q l.
Proof. intros (r & H) Hf. apply (Permutation_Forall H) in Hf. apply Forall_app in Hf as (Hf & _). exact Hf. Qed.

Lemma leaves_exprs (t : tuple expr) : ExpandProofs.leaves t = flat_map tuple_exprs t.
Proof.
  assert (G : forall v : tuple_value expr, leaves_v v = tuple_exprs v).
  { intros v. induction v as [e|l IH] using tuple_ind'; [reflexivity|]. cbn [leaves_v tuple_exprs].
    induction IH as [|x l Hx _ IHl]; [reflexivity|]. cbn. rewrite Hx. f_equal. }
  unfold ExpandProofs.leaves. apply flat_map_ext. exact G.
Qed.

Lemma combine_part {A} (a : list A) (b : list expr) : part_of (map snd (combine a b)) b.
Proof.
  revert b; induction a as [|x a IH]; intros [|y b]; cbn; try apply part_nil.
  change (y :: map snd (combine a b)) with ([y] ++ map snd (combine a b)). change (y :: b) with ([y] ++ b).
  apply part_app; [apply part_refl|apply IH].
Qed.

Lemma spec_items_part al sv items : make_spec_items al sv = Ok items -> part_of (map snd items) (source_exprs sv).
Proof.
  destruct al as [a|at_], sv as [e|et]; cbn [make_spec_items]; try discriminate.
  - intros H. injection H as <-. apply part_refl.
  - destruct (match_tuples at_ et); try discriminate. cbn [bind].
    destruct (iter_recursive at_) as [xs| |]; try discriminate. cbn [bind].
    destruct (iter_recursive_ok et) as (es & He & Hp). rewrite He. cbn [bind]. intros H. injection H as <-.
    eapply part_trans; [apply combine_part|]. cbn [source_exprs]. rewrite <- leaves_exprs. exists []. rewrite app_nil_r. symmetry. exact Hp.
Qed.

Lemma loop_items_part loops : forall vals items, In vals (nested_loops (map loop_values loops)) -> loop_items loops vals = Ok items ->
  part_of (map snd items) (flat_map loop_exprs loops).
Proof.
  induction loops as [|l loops IH]; intros vals items Hin H.
  - cbn in H. injection H as <-. apply part_nil.
  - cbn [map nested_loops] in Hin. apply in_flat_map in Hin as (v & Hv & Hin). apply in_map_iff in Hin as (vals' & <- & Hin).
    cbn [loop_items] in H. destruct (make_spec_items (loop_pattern l) v) as [its| |] eqn:E; try discriminate H. cbn [bind] in H.
    destruct (loop_items loops vals') as [rest| |] eqn:E2; try discriminate H. injection H as <-.
    rewrite map_app. cbn [flat_map]. apply part_app; [|eapply IH; eassumption].
    eapply part_trans; [eapply spec_items_part; exact E|]. apply part_in. exact Hv.
Qed.

Lemma expand_part {B} (ast : raw_ast B) rws rw : expand ast = Ok rws -> In rw rws ->
  part_of (map snd (spec_items (fst rw))) (ast_exprs ast).
Proof.
  unfold ast_exprs. destruct (ast_loops ast) as [loops|] eqn:El.
  - rewrite (expand_loops ast loops El). intros H Hin. apply ExpandProofs.mapM_Ok in H.
    destruct (Forall2_in_r _ _ _ _ H Hin) as (vals & Hv & Hr).
    unfold rewrite_for in Hr. destruct (loop_items loops vals) as [items| |] eqn:Ei; try discriminate Hr. injection Hr as <-. cbn [fst].
    assert (Hl : part_of (map snd items) (flat_map loop_exprs loops)).
    { eapply loop_items_part; [|exact Ei]. unfold all_combinations in Hv. destruct (map loop_values loops); [contradiction|exact Hv]. }
    destruct (ast_spec ast) as [sp|]; cbn [spec_items].
    + rewrite map_app. apply part_app; [exact Hl|apply part_refl].
    + rewrite app_nil_r. exact Hl.
  - unfold expand. rewrite El. intros H Hin. injection H as <-. destruct Hin as [<-|[]]. cbn [fst app].
    destruct (ast_spec ast); [apply part_refl|apply part_nil].
Qed.

Lemma item_ids_exprs items : item_ids items = flat_map ids (map snd items).
Proof. unfold item_ids. rewrite flat_map_concat_map, flat_map_concat_map, map_map. reflexivity. Qed.

(** ** Failures *)

(** Where expansion fails, it is with a type error. *)
Lemma mapM_class {A B} (f : A -> res B) (E : error -> Prop) (Q : panic -> Prop) l :
  (forall x, match f x with Ok _ => True | Err e => E e | Panic p => Q p end) ->
  match mapM f l with Ok _ => True | Err e => E e | Panic p => Q p end.
Proof.
  intros H. induction l as [|x l IH]; [exact I|]. cbn [mapM]. specialize (H x). destruct (f x); cbn [bind]; auto.
  destruct (mapM f l); cbn [bind]; auto.
Qed.
Lemma spec_items_fail al sv : match make_spec_items al sv with Ok _ => True | Err e => e = TypeError | Panic _ => False end.
Proof.
  destruct al as [a|a], sv as [e|e]; cbn [make_spec_items]; auto. rewrite match_tuples_iff.
  destruct (list_eq_dec _ _ _); cbn [bind]; auto.
  destruct (iter_recursive_ok a) as (x & -> & _). destruct (iter_recursive_ok e) as (y & -> & _). exact I.
Qed.
Lemma loop_items_fail loops : forall vals, match loop_items loops vals with Ok _ => True | Err e => e = TypeError | Panic _ => False end.
Proof.
  induction loops as [|l loops IH]; intros [|v vals]; try exact I. cbn [loop_items].
  pose proof (spec_items_fail (loop_pattern l) v) as H. destruct (make_spec_items _ _); cbn [bind]; auto.
  specialize (IH vals). destruct (loop_items loops vals); cbn [bind]; auto.
Qed.
Lemma expand_fails {B} (ast : raw_ast B) :
  match expand ast with Ok _ => True | Err e => e = TypeError | Panic _ => False end.
Proof.
  destruct (ast_loops ast) as [loops|] eqn:El; [|unfold expand; rewrite El; exact I].
  rewrite (expand_loops ast loops El). apply mapM_class. intros vals. unfold rewrite_for.
  pose proof (loop_items_fail loops vals). destruct (loop_items loops vals); cbn [bind]; auto.
Qed.

Section Definitions.
Context (O : oracles) (seed n : N).
Let env := new_initialized O seed n.

Definition definition_error (e : error) : Prop :=
  e = TypeError \/ e = EvalError \/ (exists x, e = RedefinedNameError x) \/ (exists f, e = SignatureError f /\ has_func env f = true).

Lemma elab_known G e ex er : calls_known (has_func env) e -> elab env G e ex = inr er ->
  er = TypeError \/ exists f, er = SignatureError f /\ has_func env f = true.
Proof.
  intros Hk. destruct e as [id v|id name args raw]; cbn [elab].
  - destruct (coercion_cost _ _); intros H; [discriminate|injection H as <-; auto].
  - inversion Hk as [|? ? ? ? Hn _]; subst. unfold has_func in Hn.
    destruct (get_func_variants env name) as [fs|] eqn:Eg; [|discriminate].
    destruct (best _) as [[[c f] tes]|]; intros H; [discriminate|]. injection H as <-. right. exists name. split; [reflexivity|].
    unfold has_func. rewrite Eg. reflexivity.
Qed.
Lemma elab_items_known items : forall G, Forall (calls_known (has_func env)) (map snd items) ->
  match elab_items env G items with
  | Ok _ => True
  | Err e => e = TypeError \/ (exists x, e = RedefinedNameError x) \/ (exists f, e = SignatureError f /\ has_func env f = true)
  | Panic _ => False
  end.
Proof.
  induction items as [|[x e] items IH]; intros G Hk; [exact I|]. cbn [map snd] in Hk. inversion Hk as [|? ? He Hr]; subst.
  cbn [elab_items]. destruct (elab env G e None) as [[te c]|er] eqn:Ee.
  - destruct (assoc_str x G); [eauto|]. specialize (IH ((x, target_of te) :: G) Hr).
    destruct (elab_items _ _ _); cbn [bind]; auto.
  - destruct (elab_known _ _ _ _ He Ee) as [H|H]; auto.
Qed.

Lemma definitions_fail spec : NoDup (item_ids (spec_items spec)) -> Forall (calls_known (has_func env)) (map snd (spec_items spec)) ->
  match make_substitutions O env spec with
  | Ok bs => map fst bs = map fst (spec_items spec)
  | Err e => definition_error e
  | Panic p => p = PIdentNew \/ p = PLitNew
  end.
Proof.
  intros Hn Hk. rewrite make_substitutions_spec by exact Hn. unfold bindings, definition_error.
  pose proof (elab_items_known (spec_items spec) [] Hk) as He.
  destruct (elab_items env [] (spec_items spec)) as [tis|er|p] eqn:E; cbn [bind]; [|tauto|contradiction].
  pose proof (items_sound O seed n (spec_items spec) [] [] tis (Forall2_nil _) E) as Hs. change (e_seed env) with seed.
  destruct (run_items O seed [] tis) as [bs|er|p] eqn:Er; [|tauto|exact Hs].
  rewrite (run_items_names _ _ _ _ _ Er). eapply elab_items_names. exact E.
Qed.
End Definitions.

(** ** Failures of the visitor *)
Section Visitor.
Context (O : oracles) (lookup : str -> option value) (reparse : kind -> list tt -> option (list tt)).

Definition subst_class {A} (r : res A) : Prop :=
  match r with
  | Ok _ => True
  | Err e => exists x, e = SubstitutionError x /\ lookup x <> None
  | Panic p => p = PErrorData \/ p = PUnreachable
  end.

Lemma class_bind {A B} (r : res A) (f : A -> res B) : subst_class r -> (forall a, subst_class (f a)) -> subst_class (bind r f).
Proof. intros H Hf. destruct r; cbn [bind]; [apply Hf|exact H|exact H]. Qed.
Lemma class_mapM {A B} (f : A -> res B) l : Forall (fun x => subst_class (f x)) l -> subst_class (mapM f l).
Proof.
  induction 1 as [|x l Hx _ IH]; [exact I|]. cbn [mapM]. apply class_bind; [exact Hx|]. intros b. apply class_bind; [exact IH|]. intros; exact I.
Qed.
Lemma class_all {A B} (f : A -> res B) l : (forall x, subst_class (f x)) -> subst_class (mapM f l).
Proof. intros H. apply class_mapM. apply Forall_forall. auto. Qed.
Lemma class_opt {A} (f : A -> res A) x : (forall a, subst_class (f a)) -> subst_class (visit_opt f x).
Proof. intros H. destruct x; [|exact I]. cbn. apply class_bind; [apply H|intros; exact I]. Qed.

Lemma class_subst {N} (parse : list tt -> option N) ts : subst_class (substitute_idents O lookup parse ts).
Proof.
  rewrite substitute_idents_spec. 
  assert (G : forall l last, Forall (fun s => match fst s with Some x => lookup x <> None | None => True end) l ->
    match last with Some x => lookup x <> None | None => True end -> subst_class (check parse last l)).
  { induction l as [|[nm s] l IH]; intros last Hl Hlast; [exact I|]. inversion Hl as [|? ? H1 H2]; subst. cbn [check].
    cbn in H1. destruct (parse s).
    - apply IH; [exact H2|]. destruct nm; auto.
    - destruct nm as [x|]; [cbn; eauto|]. destruct last as [x|]; cbn; eauto. }
  apply class_bind.
  - apply G; [|exact I]. pose proof (proj1 (stages_shape O lookup ts)) as Hs. unfold substitution_stages in Hs. apply Forall_forall. intros [nm s] Hin.
    apply (in_map fst) in Hin. rewrite Hs in Hin. apply in_map_iff in Hin as (l & Hl & Hin). apply filter_In in Hin as (_ & Ho).
    cbn [fst] in *. subst nm. destruct l as [x|c j|l|d l]; cbn in Ho |- *; auto.
    unfold tokens_of in Ho. destruct (lookup x); [discriminate|]. cbn in Ho. discriminate.
  - intros a. destruct (parse _); cbn; auto.
Qed.

Ltac step := first [ apply class_subst | exact I | apply class_mapM; assumption | apply class_bind; [|intros ?] | apply class_opt; intros ? | apply class_all; intros ? ].

Lemma class_attrs l : subst_class (visit_attrs O lookup reparse l).
Proof. apply class_subst. Qed.
Lemma class_field f : subst_class (visit_field O lookup reparse f).
Proof.
  unfold visit_field, visit_attrs, visit_node. unfold visit_name. repeat step.
Qed.
Lemma class_fields f : subst_class (visit_fields O lookup reparse f).
Proof. destruct f; cbn [visit_fields]; try exact I; (apply class_bind; [apply class_all; apply class_field|intros; exact I]). Qed.
Lemma class_variant v : subst_class (visit_variant O lookup reparse v).
Proof.
  unfold visit_variant, visit_attrs, visit_name, visit_node. repeat (apply class_fields || step).
Qed.
Lemma class_other ts : subst_class (visit_other_stmt O lookup reparse ts).
Proof.
  unfold visit_other_stmt. destruct (reparse KBlock _) as [b|]; [|cbn; auto]. apply class_bind; [apply class_subst|].
  intros [|[x|c j|l|[| | |] ts'] [|? ?]]; cbn; auto.
Qed.

Lemma class_item i : subst_class (visit_item O lookup reparse i).
Proof.
  apply (item_ind' (fun i => subst_class (visit_item O lookup reparse i)) (fun s => subst_class (visit_stmt O lookup reparse s))
    (fun i => subst_class (visit_trait_item O lookup reparse i)) (fun i => subst_class (visit_impl_item O lookup reparse i)));
    clear i; intros; cbn [visit_item visit_stmt visit_trait_item visit_impl_item];
    unfold visit_attrs, visit_name, visit_node, visit_generics, visit_abi in *;
    try (repeat first [ apply class_fields | apply class_variant | apply class_field | apply class_other | step ]).
  destruct i; cbn [visit_stmt]; try (apply class_bind; [exact H|intros; exact I]). apply class_bind; [apply class_other|intros; exact I].
Qed.
Lemma class_stmt s : subst_class (visit_stmt O lookup reparse s).
Proof.
  destruct s as [i|ts]; [|cbn [visit_stmt]; apply class_bind; [apply class_other|intros; exact I]].
  pose proof (class_item i) as H. destruct i; cbn [visit_stmt]; try (apply class_bind; [exact H|intros; exact I]).
  apply class_bind; [apply class_other|intros; exact I].
Qed.
Lemma class_block l : subst_class (visit_block O lookup reparse l).
Proof. apply class_all. apply class_stmt. Qed.
End Visitor.

(** ** Whole uses *)
Lemma calls_known_mono (hf hf' : str -> bool) e : (forall x, hf x = true -> hf' x = true) -> calls_known hf e -> calls_known hf' e.
Proof.
  intros H. induction e as [id v|id name args raw IH] using expr_ind'; intros Hk; [constructor|].
  inversion Hk as [|? ? ? ? Hn Ha]; subst. constructor; [auto|]. clear -IH Ha. induction Ha as [|a args Ha _ IHa]; [constructor|].
  inversion IH; subst. constructor; auto.
Qed.
Section Uses.
Context (O : oracles) (P : parsers) (Y : syntax).

Lemma known_table seed k name : has_func (new_initialized O seed k) name = known O name.
Proof.
  unfold known, has_func, get_func_variants, new_initialized. cbn [e_funcs].
  generalize 0%N as m. generalize (table O). intros l. revert k. induction l as [|[nm vs] l IH]; intros k m; [reflexivity|].
  cbn [number_rows assoc_str]. destruct (str_eqb name nm); [reflexivity|]. apply IH.
Qed.

Lemma parsed_source seed k n s ast : p_ast (inv_parsed (invocation_of O P seed k n s)) = Ok (Some ast) ->
  NoDup (flat_map ids (ast_exprs ast)) /\ Forall (calls_known (known O)) (ast_exprs ast).
Proof.
  intros H. assert (exists n', drawn n n' (flat_map ids (ast_exprs ast)) /\ Forall (calls_known (known O)) (ast_exprs ast)) as (n' & (_ & Hn & _) & Hk).
  { destruct s as [ts|ts|attr item]; cbn [invocation_of inv_parsed] in H;
      [eapply func_macro_drawn|eapply func_macro_drawn|eapply attr_macro_drawn]; exact H. }
  split; assumption.
Qed.

Definition error_class (e : error) : Prop :=
  e = TypeError \/ e = EvalError \/ (exists x, e = RedefinedNameError x) \/ (exists f, e = SignatureError f /\ known O f = true) \/
  exists x, e = SubstitutionError x.
Definition panic_class (p : panic) : Prop := p = PIdentNew \/ p = PLitNew \/ p = PErrorData \/ p = PUnreachable.

Lemma source_rewrite seed k n s ast rws rw : p_ast (inv_parsed (invocation_of O P seed k n s)) = Ok (Some ast) ->
  expand ast = Ok rws -> In rw rws ->
  NoDup (item_ids (spec_items (fst rw))) /\ Forall (calls_known (has_func (new_initialized O seed k))) (map snd (spec_items (fst rw))).
Proof.
  intros Hp Hx Hin. apply parsed_source in Hp as (Hn & Hk). pose proof (expand_part _ _ _ Hx Hin) as Hpart.
  split.
  - rewrite item_ids_exprs. eapply part_NoDup; [apply part_flat_map; exact Hpart|exact Hn].
  - eapply part_Forall; [exact Hpart|]. eapply Forall_impl; [|exact Hk].
    intros e. apply calls_known_mono. intros x. rewrite known_table. auto.
Qed.

Lemma outcome_classes prefix seed k n s :
  match outcome O Y prefix (invocation_of O P seed k n s) with
  | Code _ | SyntaxError => True
  | CompileError e => error_class e
  | Panicked p => panic_class p
  end.
Proof.
  unfold outcome. destruct (p_ast (inv_parsed (invocation_of O P seed k n s))) as [[ast|]|e|p] eqn:Ep; [|exact I| |].
  2, 3: exfalso; clear -Ep; destruct s as [ts|ts|attr item]; cbn [invocation_of inv_parsed] in Ep; unfold parse_func_macro, parse_attr_macro in Ep;
    repeat match type of Ep with context [match ?x with _ => _ end] => destruct x; try discriminate Ep end.
  cbn [inv_seed inv_first_id invocation_of]. unfold execute. pose proof (expand_fails ast) as Hx.
  destruct (expand ast) as [rws|e|p] eqn:Ex; cbn [bind]; [|left; exact Hx|contradiction].
  assert (H : match mapM (execute_block_rewrite O Y (new_initialized O seed k) (thread_for prefix (invocation_of O P seed k n s))) rws with
              | Ok _ => True | Err e => error_class e | Panic p => panic_class p end).
  { assert (Hall : forall rw, In rw rws -> match execute_block_rewrite O Y (new_initialized O seed k) (thread_for prefix (invocation_of O P seed k n s)) rw with
              | Ok _ => True | Err e => error_class e | Panic p => panic_class p end).
    { intros rw Hin. destruct (source_rewrite _ _ _ _ _ _ _ Ep Ex Hin) as (Hn & Hk).
      unfold execute_block_rewrite, substitute. pose proof (definitions_fail O seed k (fst rw) Hn Hk) as Hd.
      destruct (make_substitutions O (new_initialized O seed k) (fst rw)) as [bs|e|p]; cbn [bind].
      - pose proof (class_block O (fun x => assoc_str x bs) (reparse Y) (snd rw)) as Hc.
        destruct (visit_block _ _ _ _) as [b|e|p]; cbn [bind]; auto.
        + destruct Hc as (x & -> & _). unfold error_class. eauto 8.
        + unfold panic_class. destruct Hc; auto.
      - unfold definition_error, error_class in *. destruct Hd as [->|[->|[H|(f & -> & Hf)]]]; auto. rewrite known_table in Hf. eauto 8.
      - unfold panic_class. destruct Hd; auto. }
    clear -Hall. induction rws as [|rw rws IH]; [exact I|]. cbn [mapM]. pose proof (Hall rw (or_introl eq_refl)) as H1.
    destruct (execute_block_rewrite _ _ _ _ rw); cbn [bind]; auto.
    assert (H2 := IH (fun r Hr => Hall r (or_intror Hr))). destruct (mapM _ rws); cbn [bind]; auto. }
  destruct (mapM _ rws); cbn [bind]; exact H.
Qed.

Lemma uses_classes uses : Forall (fun o => match o with
  | Code _ | SyntaxError => True
  | CompileError e => error_class e
  | Panicked p => panic_class p
  end) (expand_uses O P Y uses).
Proof.
  unfold expand_uses. destruct uses as [|u r]; [constructor|]. cbn [map]. rewrite run_fresh. cbn [snd].
  change (invocation_for O P u :: map (invocation_for O P) r) with (map (invocation_for O P) (u :: r)). rewrite map_map.
  apply Forall_map. apply Forall_forall. intros x _. apply outcome_classes.
Qed.
End Uses.

(** ** Any function table *)
Lemma elab_items_defined env items : forall G x, Forall (calls_known (has_func env)) (map snd items) ->
  elab_items env G items <> Err (UndefinedFunctionError x).
Proof.
  induction items as [|[y e] items IH]; intros G x Hk H; [discriminate|]. cbn [map snd] in Hk. inversion Hk as [|? ? He Hr]; subst.
  cbn [elab_items] in H. destruct (elab env G e None) as [[te c]|er] eqn:Ee.
  - destruct (assoc_str y G); [discriminate|]. pose proof (IH ((y, target_of te) :: G) x Hr) as Hn.
    destruct (elab_items env ((y, target_of te) :: G) items); cbn [bind] in H; congruence.
  - injection H as ->. destruct e as [id v|id name args raw]; cbn [elab] in Ee.
    + destruct (coercion_cost _ _); discriminate.
    + inversion He as [|? ? ? ? Hn _]; subst. unfold has_func in Hn.
      destruct (get_func_variants env name); [|discriminate]. destruct (best _) as [[[? ?] ?]|]; discriminate.
Qed.
Lemma resolve_defined env items x : NoDup (item_ids items) -> Forall (calls_known (has_func env)) (map snd items) ->
  resolve_items env empty_scope items <> Err (UndefinedFunctionError x).
Proof.
  intros Hn Hk H.
  pose proof (resolve_items_ok env items [] empty_scope (Forall2_nil _) Hn (fun a (Ha : In a []) => match Ha with end) (fun id _ => eq_refl)) as Hr.
  pose proof (elab_items_defined env items [] x Hk) as He.
  destruct (elab_items env [] items) as [tis|er|p]; [|congruence|contradiction].
  destruct Hr as (sc & Hr & _). congruence.
Qed.
Lemma parsed_resolves P env n ast rws rw x :
  (exists ts, p_ast (parse_func_macro P (has_func env) n ts) = Ok (Some ast)) \/
  (exists attr item, p_ast (parse_attr_macro P (has_func env) n attr item) = Ok (Some ast)) ->
  expand ast = Ok rws -> In rw rws ->
  resolve_items env empty_scope (spec_items (fst rw)) <> Err (UndefinedFunctionError x).
Proof.
  intros Hp Hx Hin.
  assert (exists n', drawn n n' (flat_map ids (ast_exprs ast)) /\ Forall (calls_known (has_func env)) (ast_exprs ast)) as (n' & (_ & Hn & _) & Hk).
  { destruct Hp as [(ts & Hp)|(attr & item & Hp)]; [eapply func_macro_drawn|eapply attr_macro_drawn]; exact Hp. }
  pose proof (expand_part _ _ _ Hx Hin) as Hpart.
  apply resolve_defined; [rewrite item_ids_exprs; eapply part_NoDup; [apply part_flat_map; exact Hpart|exact Hn]|].
  eapply part_Forall; [exact Hpart|exact Hk].
Qed.

(** Unknown names. *)
Lemma unknown_is_value P hf n x r : hf x = false -> expr_at P hf n (TIdent x :: r) = parse_value P is_comma n (TIdent x :: r).
Proof.
  intros H. unfold expr_at, parse_expr. cbn [map ann]. unfold parse_call.
  assert (Ht : toks ({| a_tok := TIdent x; a_args := fun n => (n, []); a_tuple := fun n => (n, None); a_pattern := None |} :: map (ann P hf) r) = TIdent x :: r).
  { unfold toks. cbn [map a_tok]. f_equal. rewrite map_map. rewrite (map_ext _ (fun t => t)); [apply map_id|].
    intros [y|c j|l|[| | |] ts]; reflexivity. }
  destruct r as [|g r]; cbn [map] in *; [rewrite Ht; reflexivity|].
  destruct (ann P hf g) as [t f1 f2 f3] eqn:Eg. destruct t as [y|c j|l|[| | |] ts]; try (rewrite Ht; reflexivity).
  rewrite H, andb_false_r. rewrite Ht. reflexivity.
Qed.
Lemma known_is_call P hf n x args r : ident_allowed P x = true -> hf x = true ->
  exists n' id rid es, expr_at P hf n (TIdent x :: TGroup Paren args :: r) = (n', (ECall id x es (Some (rid, args)), 2, false)).
Proof.
  intros H1 H2. unfold expr_at, parse_expr. cbn [map ann]. unfold parse_call. rewrite H1, H2. cbn [andb a_args].
  destruct (parse_args P hf (map (ann P hf) args) n) as [n1 es]. eauto 8.
Qed.

Lemma undefined_unreachable O P Y uses x : ~ In (CompileError (UndefinedFunctionError x)) (expand_uses O P Y uses).
Proof.
  intros H. pose proof (uses_classes O P Y uses) as HF. rewrite Forall_forall in HF. apply HF in H.
  unfold error_class in H. destruct H as [H|[H|[(y & H)|[(f & H & _)|(y & H)]]]]; discriminate H.
Qed.
Lemma announced O P u : inv_prefix (invocation_for O P u) =
  match u_source u with
  | Compose _ => txt "compose!: "
  | ComposeIdents _ => txt "compose_idents!: "
  | ComposeItem _ _ => txt "compose_item!: "
  end.
Proof. reflexivity. Qed.
