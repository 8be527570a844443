(** Proofs for C51 and C52 about whole uses. *)
From Coq Require Import String.
From Verif Require Import Base BaseFacts Token Types Values Ast Env Resolve Eval Expand Item AliasSubstitution Deprecation Interpreter Parse Macro
  Costs CostMacro Work SpecParse SpecCosts SpecWork SpecSize CostProofs WorkProofs SizeProofs MacroProofs ExpandProofs Concrete ConcreteSpecs ConcreteRuns ConcreteParse.
Open Scope list_scope.

Lemma weights_light O P u ast : p_ast (inv_parsed (invocation_for O P u)) = Ok (Some ast) ->
  (fold_right N.add 0 (map weight (ast_exprs ast)) <= heft_of 5 2 (written (u_source u)))%N.
Proof.
  apply use_light; [lia|intros; apply N.le_refl|intros; apply N.le_refl].
Qed.

Section Uses.
Context (arith : N -> N -> N -> res N) (bound : N) (Hright : right_below bound arith).
Context (O : oracles) (P : parsers) (Y : syntax).

Lemma execute_agrees env t ast : (fold_right N.add 0 (map weight (ast_exprs ast)) < bound)%N ->
  execute_with arith O Y env t ast = execute O Y env t ast.
Proof.
  intros Hw. unfold execute_with, execute. destruct (expand ast) as [rws| |] eqn:He; cbn [bind]; try reflexivity. f_equal.
  assert (Hall : forall rw, In rw rws -> execute_block_rewrite_with arith O Y env t rw = execute_block_rewrite O Y env t rw).
  { intros rw Hin. unfold execute_block_rewrite_with, execute_block_rewrite.
    rewrite (substitutions_agree env arith bound Hright); [reflexivity|].
    pose proof (expand_part _ _ _ He Hin) as Hp.
    assert (Hf : Forall (fun e => (weight e < bound)%N) (ast_exprs ast)).
    { apply Forall_forall. intros e Hin'. pose proof (sum_in (weight e) (map weight (ast_exprs ast)) (in_map weight _ _ Hin')). lia. }
    pose proof (part_Forall _ _ _ Hp Hf) as Hg. rewrite Forall_map in Hg. exact Hg. }
  clear He. induction rws as [|rw rws IH]; [reflexivity|]. cbn [mapM].
  rewrite (Hall rw (or_introl eq_refl)), IH; [reflexivity|]. intros r Hr. apply Hall. right. exact Hr.
Qed.

Lemma core_agrees t u : (heft_of 5 2 (written (u_source u)) < bound)%N ->
  compose_core_with arith O Y t (invocation_for O P u) = compose_core O Y t (invocation_for O P u).
Proof.
  intros Hw. unfold compose_core_with, compose_core. destruct (scoped _) as [t2| |]; try reflexivity.
  destruct (run_parser _ t2) as [t3| |]; try reflexivity.
  destruct (p_ast (inv_parsed (invocation_for O P u))) as [[ast|]| |] eqn:Ea; try reflexivity.
  rewrite execute_agrees; [reflexivity|]. pose proof (weights_light _ _ _ _ Ea). lia.
Qed.

Lemma uses_agree uses : Forall (fun u => (heft_of 5 2 (written (u_source u)) < bound)%N) uses ->
  expand_uses_with arith O P Y uses = expand_uses O P Y uses.
Proof.
  unfold expand_uses_with, expand_uses. generalize (@None service).
  intros t H. f_equal. revert t. induction H as [|u uses Hu _ IH]; intros t; [reflexivity|].
  cbn [map run_with run]. rewrite core_agrees by exact Hu. destruct (compose_core O Y t _) as [t1 o]. rewrite IH. reflexivity.
Qed.
End Uses.

Lemma uses_sized arith O P Y uses : arith = checked \/ arith = wrapping ->
  Forall (fun u => let ts := written (u_source u) in (5 * tokens_of ts * 2 ^ nesting_of ts < 2 ^ 32)%N) uses ->
  expand_uses_with arith O P Y uses = expand_uses O P Y uses.
Proof.
  intros Ha H. apply (uses_agree arith u32_end).
  - destruct Ha as [Ha|Ha]; rewrite Ha; [exact checked_right|exact wrapping_right].
  - eapply Forall_impl; [|exact H]. intros u Hu. cbn zeta in Hu.
    eapply N.le_lt_trans; [apply heft_of_size; lia|exact Hu].
Qed.

(** ** Work *)
Lemma items_same env items : forall sc, fst (cresolve_items env sc items) = resolve_items env sc items.
Proof.
  induction items as [|it items IH]; intros sc; [reflexivity|]. cbn [cresolve_items resolve_items].
  rewrite (fst_cbind _ _ (fun sc' => resolve_items env sc' items)); [|exact IH]. f_equal.
  unfold cresolve_item, resolve_item. rewrite (fst_cbind _ _ (fun sc' => try_add_name sc' (fst it) (expr_id (snd it)))); [|reflexivity].
  rewrite expr_same. reflexivity.
Qed.
Lemma items_work env V : (forall name fs, get_func_variants env name = Some fs -> (N.of_nat (List.length fs) <= V)%N) ->
  forall items sc, (snd (cresolve_items env sc items) <= fold_right N.add 0 (map (fun it => work_bound V (snd it)) items))%N.
Proof.
  intros HV. induction items as [|it items IH]; intros sc; [apply N.le_refl|]. cbn [cresolve_items map fold_right].
  eapply N.le_trans; [apply snd_cbind_le; intros a _; apply IH|]. apply N.add_le_mono_r.
  unfold cresolve_item. eapply N.le_trans; [apply (snd_cbind_le _ _ 0%N); intros a _; apply N.le_refl|]. rewrite N.add_0_r.
  apply expr_work. exact HV.
Qed.

Lemma part_sum (f : expr -> N) l big : part_of l big -> (fold_right N.add 0 (map f l) <= fold_right N.add 0 (map f big))%N.
Proof.
  intros (rest & Hp). assert (E : fold_right N.add 0%N (map f big) = fold_right N.add 0%N (map f (l ++ rest))).
  { clear - Hp. induction Hp as [|x a b _ IH|x y a|a b c _ IH1 _ IH2]; cbn [map fold_right]; [reflexivity|lia|lia|congruence]. }
  rewrite E, map_app, sum_app. lia.
Qed.

Lemma use_work O P u ast rws rw : p_ast (inv_parsed (invocation_for O P u)) = Ok (Some ast) -> expand ast = Ok rws -> In rw rws ->
  let ts := written (u_source u) in
  (snd (cresolve_items (new_initialized O (u_seed u) (u_first_id u)) empty_scope (spec_items (fst rw))) <= 8 * tokens_of ts * 7 ^ nesting_of ts)%N.
Proof.
  intros Ha He Hin ts. eapply N.le_trans; [apply items_work; exact (seven_overloads O (u_seed u) (u_first_id u))|].
  rewrite <- (map_map snd (work_bound 7)).
  eapply N.le_trans; [apply part_sum; exact (expand_part _ _ _ He Hin)|].
  eapply N.le_trans; [|apply heft_of_size; lia].
  eapply (use_light O P 8 7 (work_bound 7)); [lia|intros; cbn; lia| |exact Ha].
  intros id x args raw. cbn [work_bound]. lia.
Qed.

(** ** Where it does matter *)
Fixpoint nested_calls (n : nat) : list tt :=
  match n with O => [i "p"] | S n => [i "concat"; paren (nested_calls n)] end.
(** [p = to_path(x), a = concat(concat(..p..)), {}] *)
Definition deep_use (n : nat) : use :=
  use_of (Compose ([i "p"; p1 "="; i "to_path"; paren [i "x"]; p1 ","; i "a"; p1 "="] ++ nested_calls n ++ [p1 ","; brace []])).

Lemma use_overflows : expand_uses ascii ascii_parsers syntax0 [deep_use 30] = [Code []] /\
  expand_uses_with checked ascii ascii_parsers syntax0 [deep_use 30] = [Panicked POverflow].
Proof. split; vm_compute; reflexivity. Qed.
