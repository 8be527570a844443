(** Definitions that are replaced by the values they come to. *)
From Coq Require Import String.
From Verif Require Import Base BaseFacts Token Types TypesProofs Values Ast Env Item Deprecation Interpreter Parse Macro SpecElab SpecPrograms SpecMacro SpecRepro SpecParse SpecUnroll SpecOutcome SpecOrder SpecDeprecation SpecComputed
  ElabFacts BuiltinFacts NamingProofs MacroProofs InterpreterProofs ReproProofs MeaningProofs OrderProofs.
Open Scope list_scope.

Section Definitions.
Context (O : oracles) (seed first : N).
Let env := new_initialized O seed first.

Lemma ends_same {A} (l l' : list A) x y : l ++ [x] = l' ++ [y] -> l = l' /\ x = y.
Proof. apply app_inj_tail. Qed.

Lemma one_computed pre a e bs w id post : bindings O env (pre ++ [(a, e)]) = Ok (bs ++ [(a, w)]) -> (forall x, w = VIdent x -> ~ In x (map fst pre)) ->
  bindings O env (pre ++ (a, EValue id w) :: post) = bindings O env (pre ++ (a, e) :: post).
Proof.
  intros H Hw. unfold env in *. rewrite bindings_split in H |- *. rewrite bindings_split.
  destruct (elab_items (new_initialized O seed first) [] pre) as [t1| |] eqn:E1; try discriminate. cbn [bind] in *.
  cbn [elab_items] in H |- *. destruct (elab (new_initialized O seed first) (tenv_of t1) e None) as [[te c]|] eqn:Ee; [|discriminate].
  destruct (assoc_str a (tenv_of t1)) eqn:Ea; [discriminate|]. cbn [bind] in H.
  destruct (run_items O seed [] t1) as [b1| |] eqn:R1; try discriminate. cbn [bind run_items] in H.
  destruct (SpecElab.run O seed (rev b1) te) as [v| |] eqn:Rv; try discriminate. cbn [bind] in H. injection H as H. apply ends_same in H as (<- & H). injection H as ->.
  pose proof (items_sound O seed first _ [] [] t1 (Forall2_nil _) E1) as S1. rewrite R1 in S1.
  assert (Hv : type_of w = target_of te).
  { assert (E2 : elab_items (new_initialized O seed first) [] (pre ++ [(a, e)]) = Ok (t1 ++ [(a, te)])).
    { rewrite elab_items_app, E1. cbn [bind elab_items]. rewrite app_nil_r, Ee, Ea. reflexivity. }
    pose proof (items_sound O seed first _ [] [] _ (Forall2_nil _) E2) as S2.
    rewrite run_items_app, R1 in S2. cbn [bind run_items] in S2. rewrite app_nil_r, Rv in S2. cbn [bind] in S2.
    apply Forall2_app_inv_l in S2 as (x & y & _ & Hy & Exy). inversion Hy as [|? ? ? ? (_ & Ht) Hn]; subst. inversion Hn; subst. apply ends_same in Exy as (_ & <-). exact Ht. }
  assert (Hn : map fst b1 = map fst pre) by (rewrite (run_items_names _ _ _ _ _ R1); exact (elab_items_names _ _ _ _ E1)).
  assert (Ht1 : map fst t1 = map fst pre) by exact (elab_items_names _ _ _ _ E1).
  assert (Hst : static_type (tenv_of t1) w = type_of w).
  { destruct w as [x| | | | | | |]; try reflexivity. cbn [static_type type_of]. assert (N : assoc_str x (tenv_of t1) = None); [|rewrite N; reflexivity].
    apply assoc_str_None. unfold tenv_of. rewrite map_rev, <- in_rev, map_map. cbn [fst]. change (~ In x (map fst t1)). rewrite Ht1. exact (Hw x eq_refl). }
  cbn [elab]. rewrite Hst, cost_same.
  cbn [target_of]. rewrite Hv. destruct (elab_items (new_initialized O seed first) ((a, target_of te) :: tenv_of t1) post) as [t2| |]; try reflexivity. cbn [bind run_items].
  rewrite Rv. cbn [SpecElab.run].
  assert (Hl : match w with VIdent x => match assoc_str x (rev b1) with Some u => u | None => w end | _ => w end = w).
  { destruct w as [x| | | | | | |]; try reflexivity. assert (N : assoc_str x (rev b1) = None); [|rewrite N; reflexivity].
    apply assoc_str_None. rewrite map_rev, <- in_rev, Hn. exact (Hw x eq_refl). }
  rewrite Hl, <- Hv, cast_same. reflexivity.
Qed.
Theorem definitions_computed pre l l' : computed O env pre l l' -> bindings O env (pre ++ l') = bindings O env (pre ++ l).
Proof.
  induction 1 as [pre|pre d l l' _ IH|pre a e bs w id l l' Hb Hw _ IH]; [reflexivity| |].
  - rewrite <- !app_assoc in IH. exact IH.
  - refine (eq_trans (one_computed pre a e bs w id l' Hb Hw) _). rewrite <- !app_assoc in IH. exact IH.
Qed.

(** All of them. *)
Lemma names_bound items bs : bindings O env items = Ok bs -> map fst bs = map fst items.
Proof. unfold bindings. intros H. apply bind_Ok in H as (t & E & R). exact (eq_trans (run_items_names _ _ _ _ _ R) (elab_items_names _ _ _ _ E)). Qed.
Lemma names_length items bs : bindings O env items = Ok bs -> length bs = length items.
Proof. intros H. apply names_bound, (f_equal (@length _)) in H. rewrite !map_length in H. exact H. Qed.
Lemma all_computed pre l : forall b1 b2, bindings O env pre = Ok b1 -> bindings O env (pre ++ l) = Ok (b1 ++ b2) ->
  (forall x, In (VIdent x) (map snd b2) -> ~ In x (map fst (pre ++ l))) -> computed O env pre l (values_as_definitions b2).
Proof.
  revert pre. induction l as [|[a e] l IH]; intros pre b1 b2 H1 H2 Hv.
  - rewrite app_nil_r, H1 in H2. injection H2 as H2. rewrite <- (app_nil_r b1) in H2 at 1. apply app_inv_head in H2 as <-. constructor.
  - assert (H2' := H2). change ((a, e) :: l) with ([(a, e)] ++ l) in H2'. rewrite app_assoc in H2'.
    assert (Hlen : length b1 = length pre).
    { exact (names_length _ _ H1). }
    assert (Hlen2 : length (b1 ++ b2) = length (pre ++ (a, e) :: l)).
    { exact (names_length _ _ H2). }
    destruct b2 as [|[b w] b2]; [rewrite app_nil_r, app_length in Hlen2; cbn in Hlen2; lia|].
    assert (H3 : bindings O env (pre ++ [(a, e)]) = Ok (b1 ++ [(b, w)])).
    { refine (eq_trans (bindings_app _ _ _ _ _ H2') _). f_equal.
      assert (E3 : length (pre ++ [(a, e)]) = length b1 + 1) by (rewrite Hlen; apply app_length). exact (eq_trans (f_equal (fun n => firstn n (b1 ++ (b, w) :: b2)) E3) (firstn_app_2 1 b1 ((b, w) :: b2))). }
    assert (Eb : b = a).
    { pose proof (names_bound _ _ H3) as N. rewrite !map_app in N. cbn [map fst] in N. apply ends_same in N as (_ & N). exact N. }
    subst b. cbn [values_as_definitions map fst snd] in *. apply (CpValue O env pre a e b1 w); [exact H3| |].
    + intros x -> Hx. apply (Hv x (or_introl eq_refl)). rewrite map_app. apply in_app_iff. left. exact Hx.
    + apply (IH (pre ++ [(a, e)]) (b1 ++ [(a, w)]) b2 H3); [rewrite <- !app_assoc in *; exact H2'|]. intros x Hx. rewrite <- app_assoc. apply Hv. right. exact Hx.
Qed.
Theorem values_written items bs : bindings O env items = Ok bs -> (forall x, In (VIdent x) (map snd bs) -> ~ In x (map fst items)) ->
  bindings O env (values_as_definitions bs) = Ok bs.
Proof.
  intros H Hv. exact (eq_trans (definitions_computed [] items (values_as_definitions bs) (all_computed [] items [] bs eq_refl H Hv)) H).
Qed.
End Definitions.

Section Uses.
Context (O : oracles) (P : parsers) (Y : syntax).
Theorem use_computed uses i j u u' ast ast' : nth_error uses i = Some u -> nth_error uses j = Some u' -> u_seed u = u_seed u' ->
  p_ast (inv_parsed (invocation_for O P u)) = Ok (Some ast) -> p_ast (inv_parsed (invocation_for O P u')) = Ok (Some ast') ->
  raised (invocation_for O P u) = raised (invocation_for O P u') -> same_otherwise ast ast' ->
  (forall items, In (Some items) (rounds (with_definitions (erase_ast ast) [])) ->
     computed O (new_initialized O (u_seed u) 0) items (erase_items (own_items ast)) (erase_items (own_items ast'))) ->
  nth_error (expand_uses O P Y uses) j = nth_error (expand_uses O P Y uses) i.
Proof.
  intros Hi Hj Hs Hp Hp' Hr Hsame Hc. symmetry. rewrite (use_output O P Y uses i u Hi), (use_output O P Y uses j u' Hj). f_equal.
  assert (Ehd : hd u uses = hd u' uses) by (destruct uses; [destruct i; discriminate|reflexivity]). rewrite Ehd. set (p := prefix_of _).
  unfold InterpreterProofs.outcome. rewrite Hp, Hp'.
  change (inv_seed (invocation_for O P u)) with (u_seed u). change (inv_seed (invocation_for O P u')) with (u_seed u').
  change (inv_first_id (invocation_for O P u)) with (u_first_id u). change (inv_first_id (invocation_for O P u')) with (u_first_id u').
  rewrite (use_rounds O P Y p u ast Hp), (use_rounds O P Y p u' ast' Hp'), <- (fronts_same _ _ Hsame), <- Hs.
  assert (Ht : thread_for p (invocation_for O P u) = thread_for p (invocation_for O P u')) by (unfold thread_for; rewrite Hr; reflexivity). rewrite <- Ht.
  rewrite <- (proj2 Hsame).
  rewrite (all_some_ext _ (fun f => f ++ erase_items (own_items ast')) _ (round_result O Y (u_seed u) (thread_for p (invocation_for O P u)) (ast_block ast))); [reflexivity|].
  intros f Hin. unfold round_result. rewrite (definitions_computed O (u_seed u) 0 f (erase_items (own_items ast)) (erase_items (own_items ast'))); [reflexivity|].
  apply Hc. rewrite <- (app_nil_r f). apply with_rounds. exact Hin.
Qed.

(** Values of loops too. *)
Theorem rounds_computed uses i j u u' ast ast' : nth_error uses i = Some u -> nth_error uses j = Some u' -> u_seed u = u_seed u' ->
  p_ast (inv_parsed (invocation_for O P u)) = Ok (Some ast) -> p_ast (inv_parsed (invocation_for O P u')) = Ok (Some ast') ->
  raised (invocation_for O P u) = raised (invocation_for O P u') -> ast_block ast = ast_block ast' ->
  Forall2 (computed_round O (new_initialized O (u_seed u) 0)) (rounds (erase_ast ast)) (rounds (erase_ast ast')) ->
  nth_error (expand_uses O P Y uses) j = nth_error (expand_uses O P Y uses) i.
Proof.
  intros Hi Hj Hs Hp Hp' Hr Hb Hc. symmetry. rewrite (use_output O P Y uses i u Hi), (use_output O P Y uses j u' Hj). f_equal.
  assert (Ehd : hd u uses = hd u' uses) by (destruct uses; [destruct i; discriminate|reflexivity]). rewrite Ehd. set (p := prefix_of _).
  unfold InterpreterProofs.outcome. rewrite Hp, Hp'.
  change (inv_seed (invocation_for O P u)) with (u_seed u). change (inv_seed (invocation_for O P u')) with (u_seed u').
  change (inv_first_id (invocation_for O P u)) with (u_first_id u). change (inv_first_id (invocation_for O P u')) with (u_first_id u').
  rewrite (use_rounds O P Y p u ast Hp), (use_rounds O P Y p u' ast' Hp'), <- Hs, <- !erased_own, <- !rounds_fronts.
  assert (Ht : thread_for p (invocation_for O P u) = thread_for p (invocation_for O P u')) by (unfold thread_for; rewrite Hr; reflexivity). rewrite <- Ht, <- Hb.
  match goal with |- context [sequenced ?f (all_some (rounds (erase_ast ast)))] =>
    assert (E : sequenced f (all_some (rounds (erase_ast ast))) = sequenced f (all_some (rounds (erase_ast ast')))); [|rewrite E; reflexivity] end.
  clear -Hc. enough (H : match all_some (rounds (erase_ast ast)), all_some (rounds (erase_ast ast')) with
    | Some l, Some l' => map (round_result O Y (u_seed u) (thread_for p (invocation_for O P u)) (ast_block ast)) l = map (round_result O Y (u_seed u) (thread_for p (invocation_for O P u)) (ast_block ast)) l'
    | None, None => True | _, _ => False end) by (destruct (all_some _), (all_some _); try contradiction; [cbn [sequenced]; rewrite H|]; reflexivity).
  induction Hc as [|[r|] [r'|] l l' Hr _ IH]; cbn [computed_round all_some] in *; try contradiction; [reflexivity| |exact I].
  destruct (all_some l) as [rs|], (all_some l') as [rs'|]; try contradiction; [|exact I]. cbn [option_map map]. f_equal; [|exact IH].
  unfold round_result. exact (f_equal (fun b => bind b _) (eq_sym (definitions_computed O (u_seed u) 0 [] r r' Hr))).
Qed.
End Uses.
