(** Renaming identifiers through the macros. *)
From Coq Require Import String.
From Verif Require Import Base BaseFacts Token Types Values Ast Env Eval Item Tuple CrossProduct Expand AliasSubstitution Deprecation Interpreter Parse Macro
  DoublingProofs SpecParse SpecForms FormProofs SpecRename RenameWalk RenameItem.
Open Scope list_scope.

Section Rename.
Context (r : naming).
Notation rename := (rename r).

(** ** Expansion does not look at the block *)
Definition with_block (b : list stmt) (ast : raw_ast (list stmt)) : raw_ast (list stmt) :=
  {| ast_loops := ast_loops ast; ast_spec := ast_spec ast; ast_block := b |}.
Definition rename_ast (ast : raw_ast (list stmt)) : raw_ast (list stmt) := with_block (rename_block r (ast_block ast)) ast.
Definition rename_rewrite (x : block_rewrite (list stmt)) : block_rewrite (list stmt) := (fst x, rename_block r (snd x)).
Lemma expand_rename ast : expand (rename_ast ast) = rmap (map rename_rewrite) (expand ast).
Proof.
  unfold expand. cbn [rename_ast with_block ast_loops ast_spec ast_block]. destruct (ast_loops ast) as [loops|]; [|reflexivity].
  generalize (S (fold_right (fun v n => List.length v * n) 1 (map loop_values loops))) as fuel.
  generalize (from_vecs (map loop_values loops)) as it. intros it fuel. revert it.
  induction fuel as [|fuel IH]; intros it; [reflexivity|]. cbn [expand_loop].
  apply (rbind (fun x => x)); [destruct (next it); reflexivity|]. intros [[vals|] it']; [|reflexivity].
  apply (rbind rename_rewrite); [|intros rw; apply (rbind (map rename_rewrite)); [apply IH|reflexivity]].
  unfold rewrite_for. cbn [rename_ast with_block ast_spec ast_block]. destruct (loop_items loops vals); [|reflexivity..]. cbn [bind rmap]. reflexivity.
Qed.

(** ** The interpreter *)
Section Interpreter.
Context (O : oracles) (P : parsers) (Y : syntax) (R : renames r O P Y).
Let W := renames_words _ _ _ _ R.
Let Q := renames_strings _ _ _ _ R.

Definition apart (sub : list (str * value)) : Prop := forall x v, In (x, v) sub -> spared r x /\ rename (to_tokens v) = to_tokens v.
Lemma found x (sub : list (str * value)) v : assoc_str x sub = Some v -> In (x, v) sub.
Proof. intros H. apply assoc_nth in H as [n H]. exact (nth_error_In _ _ H). Qed.
Lemma substitute_apart t b sub : apart sub -> substitute O Y t (rename_block r b) sub = rmap rename (substitute O Y t b sub).
Proof.
  intros A. unfold substitute. apply (rbind (rename_block r)).
  - apply visit_block_rename; [exact Q|exact (renames_literal _ _ _ _ R)| | |apply (renames_ident _ _ _ _ R)|apply (renames_reparse _ _ _ _ R)].
    + intros x. destruct (assoc_str x sub) as [v|] eqn:E.
      * destruct (A _ _ (found _ _ _ E)) as [S _]. rewrite (proj2 (S x) eq_refl). exact E.
      * destruct (assoc_str (r x) sub) as [v|] eqn:F; [|reflexivity]. destruct (A _ _ (found _ _ _ F)) as [S _].
        assert (G := proj1 (S x) eq_refl). rewrite <- G in F. congruence.
    + intros x v E. destruct (A _ _ (found _ _ _ E)) as [S V]. split; [exact (proj2 (S x) eq_refl)|exact V].
  - intros b'. rewrite (block_tokens_rename r W Q), (renames_forest _ _ _ _ R), (emit_rename r W Q), (forest_tokens_rename r). reflexivity.
Qed.
Lemma execute_rename env t ast :
  (forall rws rw sub, expand ast = Ok rws -> In rw rws -> make_substitutions O env (fst rw) = Ok sub -> apart sub) ->
  execute O Y env t (rename_ast ast) = rmap rename (execute O Y env t ast).
Proof.
  intros A. unfold execute. rewrite expand_rename. destruct (expand ast) as [rws|e|p]; [|reflexivity..]. cbn [rmap bind].
  apply (rbind (map rename)).
  - apply mapM_rename, Forall_forall. intros rw Hrw. unfold execute_block_rewrite. cbn [rename_rewrite fst snd].
    destruct (make_substitutions O env (fst rw)) as [sub|e|p] eqn:E; [|reflexivity..]. cbn [bind]. apply substitute_apart, (A rws rw sub eq_refl Hrw E).
  - intros l. cbn [rmap]. f_equal. unfold SpecRename.rename. rewrite concat_map. reflexivity.
Qed.

(** ** Uses *)
Definition rename_parsed (p : parsed) : parsed := {| p_scope := p_scope p; p_ast := rmap (option_map rename_ast) (p_ast p) |}.
Lemma attr_macro_rename hf n attr item : parse_attr_macro P hf n attr (rename item) = rename_parsed (parse_attr_macro P hf n attr item).
Proof.
  unfold parse_attr_macro. destruct (parse_header P hf n (map (ann P hf) attr)) as [[[[loops spec] l] u]|]; [|reflexivity].
  destruct (skip_separator loops spec (toks l)) as [[|? ?]|]; [|reflexivity..]. destruct u; [reflexivity|].
  change [TGroup Brace (rename item)] with (rename [TGroup Brace item]). rewrite (renames_block _ _ _ _ R).
  destruct (pre_block P [TGroup Brace item]) as [[[b [|[|?]]] []]|]; reflexivity.
Qed.
Lemma close_rename t o : close t (rename_output r o) = (fst (close t o), rename_output r (snd (close t o))).
Proof. unfold close. destruct (scope_drop t); reflexivity. Qed.
Lemma core_rename t u : of_item u -> rounds_apart r O P u ->
  compose_core O Y t (invocation_for O P (rename_use r u)) =
  (fst (compose_core O Y t (invocation_for O P u)), rename_output r (snd (compose_core O Y t (invocation_for O P u)))).
Proof.
  intros (attr & item & E) A. unfold rounds_apart in A. destruct u as [s seed first_id next_id]. cbn [u_source] in E. subst s.
  unfold compose_core, invocation_for, invocation_of in *.
  cbn [rename_use u_source u_seed u_first_id u_next_id inv_prefix inv_parsed inv_seed inv_first_id prefix_of] in *.
  rewrite attr_macro_rename. generalize dependent (parse_attr_macro P (known O) next_id attr item). intros p A. unfold run_parser. cbn [rename_parsed p_scope p_ast].
  destruct (scoped _) as [t2| |]; [|reflexivity..].
  destruct (match p_scope p with None => _ | Some semicolons => _ end) as [t3|e|q]; [|apply (close_rename t2 (CompileError e))|apply (close_rename t2 (Panicked q))].
  destruct (p_ast p) as [[ast|]|e|q] eqn:E; cbn [rmap option_map]; [|apply (close_rename t3 SyntaxError)|apply (close_rename t3 (CompileError e))|apply (close_rename t3 (Panicked q))].
  rewrite execute_rename; [|intros rws rw sub H1 H2 H3 x v H4; exact (A ast rws rw sub x v eq_refl H1 H2 H3 H4)].
  rewrite <- close_rename. f_equal. destruct (execute _ _ _ _ ast); reflexivity.
Qed.
Lemma run_one_rename us1 us2 u : of_item u -> rounds_apart r O P u -> forall t,
  snd (run O Y t (map (invocation_for O P) (us1 ++ rename_use r u :: us2))) =
  let os := snd (run O Y t (map (invocation_for O P) (us1 ++ u :: us2))) in
  firstn (List.length us1) os ++ map (rename_output r) (firstn 1 (skipn (List.length us1) os)) ++ skipn (S (List.length us1)) os.
Proof.
  intros I A. induction us1 as [|u1 us1 IH]; intros t; cbn zeta.
  - cbn [app map run List.length]. rewrite core_rename by assumption. destruct (compose_core O Y t (invocation_for O P u)) as [t1 o]. cbn [fst snd].
    destruct (run O Y t1 (map (invocation_for O P) us2)) as [t2 os]. reflexivity.
  - cbn [app map run List.length]. destruct (compose_core O Y t (invocation_for O P u1)) as [t1 o]. specialize (IH t1). cbn zeta in IH.
    destruct (run O Y t1 (map (invocation_for O P) (us1 ++ rename_use r u :: us2))) as [t2 os].
    destruct (run O Y t1 (map (invocation_for O P) (us1 ++ u :: us2))) as [t2' os']. cbn [snd] in IH |- *.
    rewrite IH. reflexivity.
Qed.
End Interpreter.
End Rename.

(** ** Many uses, each renamed in its own way *)
Section Uses.
Context (O : oracles) (P : parsers) (Y : syntax).
Lemma uses_rename l : Forall (fun p => renames (fst p) O P Y /\ of_item (snd p) /\ rounds_apart (fst p) O P (snd p)) l ->
  expand_uses O P Y (map (fun p => rename_use (fst p) (snd p)) l) =
  map (fun p => rename_output (fst p) (snd p)) (combine (map fst l) (expand_uses O P Y (map snd l))).
Proof.
  intros H. unfold expand_uses. generalize (@None service) as t.
  induction H as [|[r u] l (R & I & A) _ IH]; intros t; [reflexivity|]. cbn [map fst snd run] in *.
  rewrite (core_rename r O P Y R t u I A). destruct (compose_core O Y t (invocation_for O P u)) as [t1 o]. cbn [fst snd]. specialize (IH t1).
  destruct (run O Y t1 (map (invocation_for O P) (map (fun p => rename_use (fst p) (snd p)) l))) as [t2 os].
  destruct (run O Y t1 (map (invocation_for O P) (map snd l))) as [t2' os']. cbn in IH |- *. rewrite IH. reflexivity.
Qed.
Lemma uses_counted uses : List.length (expand_uses O P Y uses) = List.length uses.
Proof.
  unfold expand_uses. generalize (@None service) as t. induction uses as [|u uses IH]; intros t; [reflexivity|]. cbn [map run].
  destruct (compose_core _ _ _ _) as [t1 o]. specialize (IH t1). destruct (run _ _ t1 _) as [t2 os]. cbn in *. congruence.
Qed.
Lemma use_among r us1 us2 u o : renames r O P Y -> of_item u -> rounds_apart r O P u ->
  nth_error (expand_uses O P Y (us1 ++ u :: us2)) (List.length us1) = Some o ->
  expand_uses O P Y (us1 ++ rename_use r u :: us2) =
  firstn (List.length us1) (expand_uses O P Y (us1 ++ u :: us2)) ++ rename_output r o :: skipn (S (List.length us1)) (expand_uses O P Y (us1 ++ u :: us2)).
Proof.
  intros R I A E. unfold expand_uses in *. rewrite (run_one_rename r O P Y R us1 us2 u I A). cbn zeta. f_equal.
  generalize dependent (snd (run O Y None (map (invocation_for O P) (us1 ++ u :: us2)))). intros l E.
  assert (F : skipn (List.length us1) l = o :: skipn (S (List.length us1)) l).
  { revert l E. generalize (List.length us1) as n. induction n as [|n IH]; intros [|x l] E; try discriminate E; cbn in E |- *; [congruence|exact (IH l E)]. }
  rewrite F. reflexivity.
Qed.
(** The block of [compose!], if the parsers do not look from the definitions into it. *)
Lemma func_rename r us1 us2 seed first_id next_id header item after o : renames r O P Y -> within P -> braced P ->
  (forall b, b = item \/ b = rename r item -> stops P header (TGroup Brace b :: after)) -> stops P header [] -> unterminated header ->
  after = [] \/ (exists j, after = [TPunct 44%N j]) ->
  let u src := {| u_source := src; u_seed := seed; u_first_id := first_id; u_next_id := next_id |} in
  let f b := u (Compose (header ++ comma :: TGroup Brace b :: after)) in
  rounds_apart r O P (f item) ->
  nth_error (expand_uses O P Y (us1 ++ f item :: us2)) (List.length us1) = Some o ->
  nth_error (expand_uses O P Y (us1 ++ f (rename r item) :: us2)) (List.length us1) = Some (rename_output r o).
Proof.
  intros R Hw Hb Hs Hn Hu Ha u f A E.
  assert (G := fun b Hi => proj1 (attr_use O P Y us1 us2 seed first_id next_id header b after Hw Hb (Hs b Hi) Hn Hu Ha)). cbn zeta in G. fold u in G.
  change (forall b, b = item \/ b = rename r item -> nth_error (expand_uses O P Y (us1 ++ f b :: us2)) (List.length us1) =
    nth_error (expand_uses O P Y (us1 ++ u (ComposeItem (header ++ [comma]) b) :: us2)) (List.length us1)) in G.
  rewrite (G _ (or_intror eq_refl)). rewrite (G _ (or_introl eq_refl)) in E.
  change (u (ComposeItem (header ++ [comma]) (rename r item))) with (rename_use r (u (ComposeItem (header ++ [comma]) item))).
  rewrite (use_among r us1 us2 _ o R); [| | |exact E].
  - rewrite nth_error_app2; rewrite firstn_length_le; rewrite ?uses_counted, ?app_length; cbn; try lia. rewrite Nat.sub_diag. reflexivity.
  - exists (header ++ [comma]), item. reflexivity.
  - intros ast rws rw sub x v H. apply (A ast rws rw sub x v). rewrite <- H.
    unfold f, u, invocation_for, invocation_of. cbn [u_source u_seed u_first_id u_next_id inv_parsed].
    apply (func_attr P (known O) Hw next_id header item after Hb (Hs item (or_introl eq_refl)) Hn Hu Ha).
Qed.
End Uses.
