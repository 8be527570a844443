(** Proofs for SpecHeaderNames. *)
From Coq Require Import String.
From Verif Require Import Base BaseFacts Token Types Values Ast Env Item Deprecation Interpreter Parse Macro SpecPrograms SpecParse SpecElab SpecFormat SpecSubst SpecItem SpecDeprecation SpecMacro SpecRepro
  SpecForms SpecUnroll SpecNaming SpecNested SpecBuilding SpecRename SpecHeaders SpecHeaderNames ElabFacts ReproProofs NestedProofs BuildingProofs RenameWalk RenameItem HeaderProofs.
Open Scope list_scope.

(** ** Where clauses *)
Section Where.
Context (r : naming).
Lemma map_same {A} (f g h k : A -> A) l : Forall (fun a => f (g a) = h (k a)) l -> map f (map g l) = map h (map k l).
Proof. induction 1 as [|a l H _ IH]; [reflexivity|]. cbn. rewrite H, IH. reflexivity. Qed.
Ltac refold := fold (rename_item r) (rename_stmt r) (rename_trait_item r) (rename_impl_item r); fold drop_where drop_where_stmt drop_where_trait_item drop_where_impl_item.
Lemma where_rename : forall s, drop_where_stmt (rename_stmt r s) = rename_stmt r (drop_where_stmt s).
Proof.
  pose (Pi := fun i => drop_where (rename_item r i) = rename_item r (drop_where i)).
  pose (Ps := fun s => drop_where_stmt (rename_stmt r s) = rename_stmt r (drop_where_stmt s)).
  pose (Pt := fun i => drop_where_trait_item (rename_trait_item r i) = rename_trait_item r (drop_where_trait_item i)).
  pose (Pm := fun i => drop_where_impl_item (rename_impl_item r i) = rename_impl_item r (drop_where_impl_item i)).
  apply (stmt_ind' Pi Ps Pt Pm); unfold Pi, Ps, Pt, Pm; intros; cbn [rename_item rename_stmt rename_trait_item rename_impl_item drop_where drop_where_stmt drop_where_trait_item drop_where_impl_item]; refold; try reflexivity.
  all: try (erewrite map_same by eassumption; reflexivity).
  all: try congruence.
Qed.
Lemma code_rename (W : Forall (spared r) printed_words) (K : forall v p, on_literals r (LStr v p) = LStr v p) a : code (rename_ast r a) = rename r (code a).
Proof.
  unfold code. cbn [rename_ast ast_block]. rewrite <- (block_tokens_rename r W K). f_equal. unfold rename_block. rewrite !map_map. apply map_ext. apply where_rename.
Qed.
End Where.

(** ** Ids *)
Lemma erase_rename r e : erase (rename_expr r e) = rename_expr r (erase e).
Proof.
  induction e as [id v|id name args raw IH] using expr_ind'; [reflexivity|]. cbn. f_equal; [|destruct raw as [[? ?]|]; reflexivity].
  induction IH as [|e args H _ IH]; [reflexivity|]. cbn. rewrite H, IH. reflexivity.
Qed.
Lemma map_tuple_two {U V W} (f : U -> V) (g : V -> W) : forall t, map_tuple g (map_tuple f t) = map_tuple (fun x => g (f x)) t.
Proof.
  assert (H : forall t, map_tuple_value g (map_tuple_value f t) = map_tuple_value (fun x => g (f x)) t).
  { fix F 1. intros [v|l]; [reflexivity|]. cbn. f_equal. induction l as [|t l IH]; [reflexivity|]. cbn. rewrite F, IH. reflexivity. }
  intros t. unfold map_tuple. rewrite map_map. apply map_ext, H.
Qed.
Lemma map_tuple_ext {V W} (f g : V -> W) : (forall x, f x = g x) -> forall t, map_tuple f t = map_tuple g t.
Proof.
  intros E. assert (H : forall t, map_tuple_value f t = map_tuple_value g t).
  { fix F 1. intros [v|l]; cbn; [rewrite E; reflexivity|]. f_equal. induction l as [|t l IH]; [reflexivity|]. cbn. rewrite F, IH. reflexivity. }
  intros t. apply map_ext, H.
Qed.
Lemma erase_renamed r (a : raw_ast (list stmt)) : erase_ast (rename_ast r a) = rename_ast r (erase_ast a).
Proof.
  destruct a as [lo sp b]. unfold erase_ast, map_ast, rename_ast. cbn [ast_loops ast_spec ast_block]. f_equal.
  - destruct lo as [lo|]; [|reflexivity]. cbn [option_map]. f_equal. rewrite !map_map. apply map_ext. intros [p vs]. unfold map_loop, rename_loop. cbn [loop_pattern loop_values]. f_equal. rewrite !map_map. apply map_ext.
    intros [e|t]; cbn [map_source]; [rewrite erase_rename; reflexivity|]. f_equal. rewrite !map_tuple_two. apply map_tuple_ext, erase_rename.
  - destruct sp as [[its c]|]; [|reflexivity]. cbn [option_map]. f_equal. unfold map_spec, rename_spec, map_items. cbn [spec_items is_comma_used]. f_equal. rewrite !map_map. apply map_ext. intros [x e]. unfold rename_definition. cbn [fst snd]. rewrite erase_rename. reflexivity.
Qed.

(** ** Replacing names *)
Section Names.
Context (O : oracles) (bs : venv) (N : all_names bs).
Let f := fun x => assoc_str x bs.
Let r := naming_of bs.
Lemma name_of x : match f x with Some v => v = VIdent (r x) | None => r x = x end.
Proof.
  unfold f, r, naming_of. cbn [on_idents]. destruct (assoc_str x bs) as [v|] eqn:E; [|reflexivity]. destruct (N _ (assoc_str_some_in _ _ _ E)) as [y Hy]. cbn [snd] in Hy. subst v. reflexivity.
Qed.
Lemma kept_rename : forall ts, strings_kept O bs ts -> substituted O f ts = rename r ts.
Proof.
  assert (H1 : forall t, (forall l, In (TLit l) (leaves1 t) -> literal_of O f l = None \/ literal_of O f l = Some l) -> replaced (tokens_of f) (literal_of O f) t = [rename1 r t]).
  { intros t. induction t as [x|c j|l|d ts IH] using tt_ind'; intros H; cbn [replaced rename1].
    - unfold tokens_of. pose proof (name_of x) as E. destruct (f x) as [v|]; cbn [option_map]; [subst v; reflexivity|rewrite E; reflexivity].
    - reflexivity.
    - destruct (H l (or_introl eq_refl)) as [E|E]; rewrite E; reflexivity.
    - do 2 f_equal. cbn [leaves1] in H. induction IH as [|t ts Ht _ IHts]; [reflexivity|]. cbn [flat_map map]. rewrite Ht, IHts; [reflexivity| |].
      + intros l Hl. apply H. cbn. apply in_or_app. right. exact Hl.
      + intros l Hl. apply H. cbn. apply in_or_app. left. exact Hl. }
  unfold substituted, replaced_stream, rename. induction ts as [|t ts IH]; intros H; [reflexivity|]. cbn [flat_map map]. rewrite H1, IH; [reflexivity| |].
  - intros l Hl. apply H. unfold leaves. cbn. apply in_or_app. right. exact Hl.
  - intros l Hl. apply H. unfold leaves. cbn. apply in_or_app. left. exact Hl.
Qed.
Lemma put_rename e : only_values O bs e -> put_in O f e = rename_expr r e.
Proof.
  induction e as [id v|id name args raw IH] using expr_ind'; intros H.
  - cbn [put_in rename_expr]. f_equal. destruct v as [x| | | | | | |]; cbn [put_value]; try (symmetry; exact H).
    cbn [rename_value]. pose proof (name_of x) as E. destruct (f x) as [v|]; [exact E|rewrite E; reflexivity].
  - cbn [only_values] in H. destruct H as (H1 & H2 & H3). cbn [put_in rename_expr]. fold r in H1. rewrite H1. f_equal.
    + clear H3. induction IH as [|e args He _ IHa]; [reflexivity|]. cbn in H2 |- *. destruct H2 as [H2 H4]. rewrite He, IHa by assumption. reflexivity.
    + destruct raw as [[k ts]|]; [|reflexivity]. cbn [option_map fst snd]. rewrite (kept_rename ts (H3 _ _ eq_refl)). reflexivity.
Qed.
Lemma put_tuple t : (forall e, In e (tuple_exprs t) -> only_values O bs e) -> map_tuple_value (put_in O f) t = map_tuple_value (rename_expr r) t.
Proof.
  revert t. fix F 1. intros [e|l] H; cbn [map_tuple_value].
  - f_equal. apply put_rename, H. left. reflexivity.
  - f_equal. cbn [tuple_exprs] in H. induction l as [|t l IH]; [reflexivity|]. cbn [map]. rewrite F, IH; [reflexivity| |].
    + intros e He. apply H. cbn. apply in_or_app. right. exact He.
    + intros e He. apply H. cbn. apply in_or_app. left. exact He.
Qed.
Lemma put_source v : (forall e, In e (source_exprs v) -> only_values O bs e) -> map_source (put_in O f) v = map_source (rename_expr r) v.
Proof.
  destruct v as [e|t]; intros H; cbn [map_source].
  - f_equal. apply put_rename, H. left. reflexivity.
  - f_equal. unfold map_tuple. apply map_ext_in. intros v Hv. apply put_tuple. intros e He. apply H. cbn. apply in_flat_map. exists v. split; assumption.
Qed.
Lemma put_header (h : raw_ast (list stmt)) : mentioned_in O bs h ->
  ast_loops (map_ast (put_in O f) h) = ast_loops (rename_ast r h) /\ own_items (map_ast (put_in O f) h) = own_items (rename_ast r h).
Proof.
  destruct h as [lo sp b]. intros (H1 & H2 & H3). unfold loops_of, own_items, ast_exprs, map_ast, rename_ast in *. cbn [ast_loops ast_spec ast_block] in *. split.
  - destruct lo as [lo|]; [|reflexivity]. cbn [option_map]. f_equal. apply map_ext_in. intros [p vs] Hl. unfold map_loop, rename_loop. fold r in H1. specialize (H1 _ Hl). cbn [loop_pattern loop_values] in *. rewrite H1. f_equal.
    apply map_ext_in. intros v Hv. apply put_source. intros e He. apply H3. apply in_or_app. left. apply in_flat_map. eexists. split; [exact Hl|]. apply in_flat_map. exists v. split; assumption.
  - destruct sp as [[its c]|]; [|reflexivity]. cbn [option_map map_spec rename_spec spec_items] in *. unfold map_items. apply map_ext_in. intros [x e] Hi. unfold rename_definition. specialize (H2 _ Hi). cbn [fst snd] in *. fold r in H2. rewrite H2. f_equal.
    apply put_rename, H3. apply in_or_app. right. apply (in_map snd) in Hi. exact Hi.
Qed.
Lemma free_spared w : free_of bs w -> spared r w.
Proof.
  intros H x. pose proof (name_of x) as E. unfold f in E. destruct (assoc_str x bs) as [v|] eqn:G; [|rewrite E; tauto].
  destruct (H _ (assoc_str_some_in _ _ _ G)) as [H1 H2]. cbn [fst snd] in *. subst v. split; intros X; exfalso; [apply H2; f_equal; exact X|exact (H1 X)].
Qed.
Lemma free_functions hf : (forall x, hf x = true -> free_of bs x) -> same_functions r hf.
Proof.
  intros H x. destruct (hf x) eqn:E.
  - assert (X : r x = x) by (apply (free_spared x (H x E)); reflexivity). rewrite X. exact E.
  - destruct (hf (r x)) eqn:G; [|reflexivity]. pose proof (proj1 (free_spared _ (H _ G) x) eq_refl) as X. exfalso. apply Bool.diff_true_false. rewrite <- E, <- G. exact (f_equal hf (eq_sym X)).
Qed.
End Names.

(** ** Uses *)
Section Uses.
Context (O : oracles) (P : parsers).
Lemma same_header (p p' : parsed) inner : erase_parsed p' = erase_parsed p -> p_ast p = Ok (Some inner) ->
  p_scope p' = p_scope p /\ exists inner', p_ast p' = Ok (Some inner') /\ erase_ast inner' = erase_ast inner.
Proof.
  intros E H. assert (E1 := f_equal p_scope E). assert (E2 := f_equal p_ast E). cbn [erase_parsed p_scope p_ast] in E1, E2. rewrite H in E2. split; [exact E1|]. destruct (p_ast p') as [[a|]|e|m]; cbn [option_map] in E2; try discriminate. assert (E3 : erase_ast a = erase_ast inner) by congruence. exists a. split; [reflexivity|exact E3].
Qed.
Lemma parsed_remaining bs flat seed (p p0 : parsed) (u v : use) inner : names_fit O P bs -> strings_kept O bs (code flat) -> mentioned_in O bs (erase_ast inner) ->
  inv_parsed (invocation_for O P v) = p0 -> inv_parsed (invocation_for O P u) = rename_parsed (naming_of bs) p -> erase_parsed p = erase_parsed p0 ->
  p_ast p0 = Ok (Some inner) -> raised (invocation_for O P v) = [] -> code inner = code flat -> u_seed u = seed \/ hash_free flat ->
  remaining_on O P flat (erase_ast inner) seed bs u.
Proof.
  intros [N W F A B] Hs Hm Hv Hu He Ha Hr Hc Hsd. destruct (same_header _ _ _ He Ha) as (E1 & inner' & E2 & E3).
  unfold remaining_on, raised in *. rewrite Hu. rewrite Hv in Hr. cbn [rename_parsed p_scope p_ast]. rewrite E1, E2. split; [exact Hr|]. split; [exact Hsd|].
  exists (rename_ast (naming_of bs) inner'). split; [reflexivity|]. rewrite erase_renamed, E3. destruct (put_header O bs N (erase_ast inner) Hm) as [L1 L2]. split; [symmetry; exact L1|]. split; [symmetry; exact L2|].
  rewrite code_rename; [| |reflexivity].
  - assert (C : code inner' = code flat) by (rewrite <- Hc; unfold code; apply (f_equal ast_block) in E3; cbn in E3; rewrite E3; reflexivity).
    rewrite C. symmetry. apply kept_rename; assumption.
  - eapply Forall_impl; [|exact W]. intros w Hw. apply free_spared; assumption.
Qed.
Lemma stacked_remaining bs T item flat seed u v inner : names_fit O P bs -> strings_kept O bs T -> strings_kept O bs item -> strings_kept O bs (code flat) -> mentioned_in O bs (erase_ast inner) ->
  u_source v = ComposeItem T item -> p_ast (inv_parsed (invocation_for O P v)) = Ok (Some inner) -> raised (invocation_for O P v) = [] -> code inner = code flat ->
  u_source u = ComposeItem (substituted O (fun x => assoc_str x bs) T) (substituted O (fun x => assoc_str x bs) item) -> u_seed u = seed \/ hash_free flat ->
  stacked_on O P T item flat (erase_ast inner) seed bs u.
Proof.
  intros [N W F A B] S1 S2 S3 Hm Hv Ha Hr Hc Hu Hsd. split; [exact Hu|].
  refine (parsed_remaining bs flat seed (parse_attr_macro P (known O) (u_next_id u) T item) _ u v inner (Build_names_fit _ _ _ N W F A B) S3 Hm eq_refl _ _ Ha Hr Hc Hsd).
  - unfold invocation_for, invocation_of. rewrite Hu. cbn [inv_parsed]. rewrite (kept_rename O bs N T S1), (kept_rename O bs N item S2). apply attr_rename; [exact A|apply free_functions; assumption|exact B].
  - unfold invocation_for, invocation_of. rewrite Hv. cbn [inv_parsed]. apply attr_macro_same.
Qed.
Lemma nested_remaining bs T flat seed u v inner : names_fit O P bs -> strings_kept O bs T -> strings_kept O bs (code flat) -> mentioned_in O bs (erase_ast inner) ->
  u_source v = Compose T -> p_ast (inv_parsed (invocation_for O P v)) = Ok (Some inner) -> raised (invocation_for O P v) = [] -> code inner = code flat ->
  u_source u = Compose (substituted O (fun x => assoc_str x bs) T) -> u_seed u = seed \/ hash_free flat ->
  nested_on O P T flat (erase_ast inner) seed bs u.
Proof.
  intros [N W F A B] S1 S3 Hm Hv Ha Hr Hc Hu Hsd. split; [exact Hu|].
  refine (parsed_remaining bs flat seed (parse_func_macro P (known O) (u_next_id u) T) _ u v inner (Build_names_fit _ _ _ N W F A B) S3 Hm eq_refl _ _ Ha Hr Hc Hsd).
  - unfold invocation_for, invocation_of. rewrite Hu. cbn [inv_parsed]. rewrite (kept_rename O bs N T S1). apply func_rename; [exact A|apply free_functions; assumption|exact B].
  - unfold invocation_for, invocation_of. rewrite Hv. cbn [inv_parsed]. apply func_macro_same.
Qed.
End Uses.

(** ** The values of the outer use in the inner one *)
Section Whole.
Context (O : oracles) (P : parsers) (Y : syntax).
Theorem stacked_names uses i u outer c1 uses' k w flat c3 v inner j T item :
  faithful O (reparse Y) -> covers Y -> reads_back O ->
  nth_error uses i = Some u -> p_ast (inv_parsed (invocation_for O P u)) = Ok (Some outer) -> raised (invocation_for O P u) = [] -> nth_error (expand_uses O P Y uses) i = Some (Code c1) ->
  nth_error uses' k = Some w -> p_ast (inv_parsed (invocation_for O P w)) = Ok (Some flat) -> raised (invocation_for O P w) = [] -> nth_error (expand_uses O P Y uses') k = Some (Code c3) ->
  u_source v = ComposeItem T item -> p_ast (inv_parsed (invocation_for O P v)) = Ok (Some inner) -> raised (invocation_for O P v) = [] -> code inner = code flat ->
  u_seed u = u_seed w \/ hash_free flat ->
  (forall x, In x item_keywords -> ~ In x (ast_aliases flat)) ->
  code outer = attribute j T ++ item -> ~ In (txt "compose_item") (ast_aliases outer) ->
  proper (erase_ast outer) -> proper (erase_ast inner) -> flattened (erase_ast outer) (erase_ast inner) (erase_ast flat) ->
  exists bss, round_bindings O (new_initialized O (u_seed w) 0) (erase_ast outer) = Ok bss /\
    c1 = flat_map (fun bs => attribute j (substituted O (fun x => assoc_str x bs) T) ++ substituted O (fun x => assoc_str x bs) item) bss /\
    (built_on (erase_ast outer) (erase_ast inner) -> plain_strings O (code flat) ->
     (forall bs, In bs bss -> names_fit O P bs /\ mentioned_in O bs (erase_ast inner) /\ strings_kept O bs T /\ strings_kept O bs item /\ strings_kept O bs (code flat)) ->
     (forall bs b, In bs bss -> In b bs -> inert O (ast_aliases (erase_ast inner)) (snd b)) ->
     (forall bs e, In bs bss -> In e (ast_exprs (erase_ast inner)) -> raw_kept O (fun x => assoc_str x bs) e) ->
     forall us c, Forall2 (fun bs u => u_source u = ComposeItem (substituted O (fun x => assoc_str x bs) T) (substituted O (fun x => assoc_str x bs) item) /\ (u_seed u = u_seed w \/ hash_free flat)) bss us ->
     outputs_in_sequence (expand_uses O P Y us) = Code c -> c = c3).
Proof.
  intros Hfa Hco Hrb Hu Ha1 Hr1 Hc1 Hw Ha3 Hr3 Hc3 Hv Ha2 Hr2 Hc Hs Hk Hcode Hcomp P1 P2 Hfl.
  destruct (stacked_built O P Y _ _ _ _ _ _ _ _ _ _ _ _ _ _ Hfa Hco Hrb Hu Ha1 Hr1 Hc1 Hw Ha3 Hr3 Hc3 Hs Hk Hcode Hcomp P1 P2 Hfl) as (bss & Hb & Hc1' & H). exists bss. split; [exact Hb|]. split; [exact Hc1'|].
  intros Hst Hpl Hfit Hin Hraw us c HF. apply (H Hst Hpl Hin Hraw us c). clear H Hin Hraw Hb Hc1'. induction HF as [|bs u0 bss us [K1 K2] _ IH]; constructor.
  - destruct (Hfit bs (or_introl eq_refl)) as (F1 & F2 & F3 & F4 & F5). eapply stacked_remaining; eassumption.
  - apply IH. intros bs' Hbs. apply Hfit. right. exact Hbs.
Qed.
Theorem nested_names uses i u outer c1 uses' k w flat c3 v inner j T :
  faithful O (reparse Y) -> covers Y -> reads_back O ->
  nth_error uses i = Some u -> p_ast (inv_parsed (invocation_for O P u)) = Ok (Some outer) -> raised (invocation_for O P u) = [] -> nth_error (expand_uses O P Y uses) i = Some (Code c1) ->
  nth_error uses' k = Some w -> p_ast (inv_parsed (invocation_for O P w)) = Ok (Some flat) -> raised (invocation_for O P w) = [] -> nth_error (expand_uses O P Y uses') k = Some (Code c3) ->
  u_source v = Compose T -> p_ast (inv_parsed (invocation_for O P v)) = Ok (Some inner) -> raised (invocation_for O P v) = [] -> code inner = code flat ->
  u_seed u = u_seed w \/ hash_free flat ->
  (forall x, In x item_keywords -> ~ In x (ast_aliases flat)) ->
  code outer = inner_use j T -> ~ In (txt "compose") (ast_aliases outer) ->
  proper (erase_ast outer) -> proper (erase_ast inner) -> flattened (erase_ast outer) (erase_ast inner) (erase_ast flat) ->
  exists bss, round_bindings O (new_initialized O (u_seed w) 0) (erase_ast outer) = Ok bss /\
    c1 = flat_map (fun bs => inner_use j (substituted O (fun x => assoc_str x bs) T)) bss /\
    (built_on (erase_ast outer) (erase_ast inner) -> plain_strings O (code flat) ->
     (forall bs, In bs bss -> names_fit O P bs /\ mentioned_in O bs (erase_ast inner) /\ strings_kept O bs T /\ strings_kept O bs (code flat)) ->
     (forall bs b, In bs bss -> In b bs -> inert O (ast_aliases (erase_ast inner)) (snd b)) ->
     (forall bs e, In bs bss -> In e (ast_exprs (erase_ast inner)) -> raw_kept O (fun x => assoc_str x bs) e) ->
     forall us c, Forall2 (fun bs u => u_source u = Compose (substituted O (fun x => assoc_str x bs) T) /\ (u_seed u = u_seed w \/ hash_free flat)) bss us ->
     outputs_in_sequence (expand_uses O P Y us) = Code c -> c = c3).
Proof.
  intros Hfa Hco Hrb Hu Ha1 Hr1 Hc1 Hw Ha3 Hr3 Hc3 Hv Ha2 Hr2 Hc Hs Hk Hcode Hcomp P1 P2 Hfl.
  destruct (nested_built O P Y _ _ _ _ _ _ _ _ _ _ _ _ _ Hfa Hco Hrb Hu Ha1 Hr1 Hc1 Hw Ha3 Hr3 Hc3 Hs Hk Hcode Hcomp P1 P2 Hfl) as (bss & Hb & Hc1' & H). exists bss. split; [exact Hb|]. split; [exact Hc1'|].
  intros Hst Hpl Hfit Hin Hraw us c HF. apply (H Hst Hpl Hin Hraw us c). clear H Hin Hraw Hb Hc1'. induction HF as [|bs u0 bss us [K1 K2] _ IH]; constructor.
  - destruct (Hfit bs (or_introl eq_refl)) as (F1 & F2 & F3 & F4). eapply nested_remaining; eassumption.
  - apply IH. intros bs' Hbs. apply Hfit. right. exact Hbs.
Qed.
End Whole.
