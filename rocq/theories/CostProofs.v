(** Proofs for C51. *)
From Coq Require Import String.
From Verif Require Import Base BaseFacts Token Types Values Ast Env Resolve Eval Costs SpecCosts TypesProofs SpecElab ElabProofs ElabFacts Concrete ConcreteSpecs.
Open Scope list_scope.

Lemma cost_le5 a b c : coercion_cost a b = Some c -> (c <= 5)%N.
Proof.
  intros H. assert (B : forall a b c, coercion_cost_basic a b = Some c -> (c <= 5)%N).
  { clear. intros a b c H. unfold coercion_cost_basic in H. destruct (ty_eqb a b); [injection H as <-; lia|].
    destruct a, b; try discriminate H; injection H as <-; lia. }
  destruct a, b; try (eapply B; exact H).
Qed.

Lemma map_fst_pair {A B} (r : A -> B) l : map fst (map (fun a => (a, r a)) l) = l.
Proof. induction l; cbn; congruence. Qed.

Section Agree.
Context (env : environment) (arith : N -> N -> N -> res N) (bound : N) (Hright : right_below bound arith).

Notation total := (fun l : list expr => fold_right N.add 0%N (map weight l)).

(** Resolving an expression records a cost, at most its weight. *)
Definition bounded (a : expr) (r : resolver) : Prop :=
  forall sc t sc', r sc t = Ok sc' -> exists c, recorded_cost sc' a = Ok c /\ (c <= weight a)%N.
Definition agrees (a : expr) (r r' : resolver) : Prop := (weight a < bound)%N -> forall sc t, r' sc t = r sc t.

Definition args_ok (args : list (expr * resolver)) : Prop := Forall (fun a => bounded (fst a) (snd a)) args.

Lemma arg_bound mult t a sc cost acc st : bounded (fst a) (snd a) -> resolve_arg mult t a (sc, cost, acc) = Ok st ->
  (snd (fst st) <= cost + weight (fst a) * mult)%N.
Proof.
  intros Hb H. unfold resolve_arg in H. apply bind_Ok in H as (sc' & H1 & H). destruct (Hb _ _ _ H1) as (c & Hc & Hle).
  rewrite Hc in H. cbn [bind] in H. injection H as <-. cbn [fst snd]. nia.
Qed.
Lemma fixed_bound args : args_ok args -> forall ts st st', resolve_fixed ts args st = Ok st' ->
  (snd (fst st') <= snd (fst st) + total (map fst (firstn (List.length ts) args)))%N.
Proof.
  induction 1 as [|a args Ha _ IH]; intros ts st st' H.
  - assert (E : resolve_fixed ts [] st = Ok st) by (destruct ts; reflexivity). rewrite E in H. injection H as <-. lia.
  - destruct ts as [|t ts]; cbn [resolve_fixed] in H; [injection H as <-; lia|]. apply bind_Ok in H as (st1 & H1 & H).
    apply IH in H. destruct st as [[sc cost] acc]. apply arg_bound in H1; [|exact Ha]. cbn [List.length firstn map fold_right fst snd] in *. lia.
Qed.
Lemma variadic_bound t args : args_ok args -> forall st st', resolve_variadic t args st = Ok st' ->
  (snd (fst st') <= snd (fst st) + 2 * total (map fst args))%N.
Proof.
  induction 1 as [|a args Ha _ IH]; intros st st' H; cbn [resolve_variadic] in H; [injection H as <-; lia|].
  apply bind_Ok in H as (st1 & H1 & H). apply IH in H. destruct st as [[sc cost] acc]. apply arg_bound in H1; [|exact Ha].
  cbn [map fold_right fst snd] in *. lia.
Qed.

Lemma total_split n (args : list (expr * resolver)) : (total (map fst (firstn n args)) + total (map fst (skipn n args)) = total (map fst args))%N.
Proof.
  revert args. induction n as [|n IH]; intros args; [cbn; lia|]. destruct args as [|a args]; [reflexivity|]. cbn [firstn skipn map fold_right].
  specialize (IH args). lia.
Qed.

Lemma call_bound f args raw sc t sc' c rargs : args_ok args -> resolve_call_for_func f args raw sc t = Ok (sc', c, rargs) ->
  (c <= 5 + 2 * total (map fst args))%N.
Proof.
  intros Ha H. unfold resolve_call_for_func in H.
  destruct (match t with Some _ => _ | None => _ end) as [c0|] eqn:Ec; [|discriminate].
  assert (H0 : (c0 <= 5)%N) by (destruct t; [eapply cost_le5; exact Ec|injection Ec as <-; lia]).
  assert (Hrest : forall st, (if if is_variadic f then Nat.leb (num_args f) (List.length args) else Nat.eqb (num_args f) (List.length args)
           then let! st := resolve_fixed (non_variadic_arg_types f) args (sc, c0, []) in
                match variadic_arg_type f with Some t => resolve_variadic t (skipn (List.length (non_variadic_arg_types f)) args) st | None => Ok st end
           else Err (SignatureError (f_name f))) = Ok st -> (snd (fst st) <= 5 + 2 * total (map fst args))%N).
  { intros st Hs. destruct (if is_variadic f then _ else _); [|discriminate]. apply bind_Ok in Hs as (st1 & H1 & Hs).
    pose proof (fixed_bound args Ha _ _ _ H1) as B1. cbn [fst snd] in B1.
    pose proof (total_split (List.length (non_variadic_arg_types f)) args) as Hsp. cbn beta in Hsp.
    destruct (variadic_arg_type f) as [vt|].
    - apply variadic_bound in Hs; [cbn beta in *; lia|]. unfold args_ok. rewrite <- (firstn_skipn (List.length (non_variadic_arg_types f)) args) in Ha.
      apply Forall_app in Ha. apply Ha.
    - injection Hs as <-. cbn beta in *. lia. }
  destruct (f_arg_types f) as [|t1 ts] eqn:Et; [apply (Hrest _ H)|].
  destruct t1; try apply (Hrest _ H). destruct ts; [|apply (Hrest _ H)]. destruct raw as [[rid tks]|]; [|apply (Hrest _ H)].
  apply bind_Ok in H as (sc1 & _ & H). injection H as _ <- _. cbn beta. lia.
Qed.

Lemma candidates_bound fs args raw sc t cands : args_ok args -> try_candidates fs args raw sc t = Ok cands ->
  Forall (fun x : candidate => (fst (fst (fst x)) <= 5 + 2 * total (map fst args))%N) cands.
Proof.
  intros Ha. revert cands. induction fs as [|f fs IH]; intros cands H; cbn [try_candidates] in H; [injection H as <-; constructor|].
  destruct (resolve_call_for_func f args raw sc t) as [[[sc' c] rargs]|er|p] eqn:Ef.
  - apply bind_Ok in H as (rest & H1 & H). injection H as <-. constructor; [|apply IH; exact H1]. cbn [fst]. eapply call_bound; eassumption.
  - destruct er; try discriminate; apply IH; exact H.
  - discriminate.
Qed.

Lemma insert_in x l : forall y, In y (insert_sorted x l) -> y = x \/ In y l.
Proof.
  induction l as [|z l IH]; intros y H; cbn [insert_sorted] in H; [destruct H as [<-|[]]; auto|].
  destruct (key_ltb _ _); destruct H as [<-|H]; cbn; auto. apply IH in H. tauto.
Qed.
Lemma sort_in l y : In y (sort_by_key l) -> In y l.
Proof.
  unfold sort_by_key. assert (G : forall acc, In y (fold_left (fun acc x => insert_sorted x acc) l acc) -> In y l \/ In y acc).
  { induction l as [|x l IH]; intros acc H; [auto|]. cbn [fold_left] in H. apply IH in H as [H|H]; [left; right; exact H|].
    apply insert_in in H as [->|H]; [left; left; reflexivity|auto]. }
  intros H. apply G in H as [H|[]]. exact H.
Qed.

Lemma expr_bounded e : bounded e (resolve_expr env e).
Proof.
  induction e as [id v|id name args raw IH] using expr_ind'; intros sc t sc' H; cbn [resolve_expr] in H.
  - unfold resolve_value in H. apply bind_Ok in H as (from & _ & H).
    destruct (coercion_cost from (match t with Some t => t | None => from end)) as [c|] eqn:Ec; [|discriminate]. injection H as <-.
    exists c. cbn [recorded_cost set_value_meta sc_values assoc_N]. rewrite N.eqb_refl. split; [reflexivity|]. cbn [weight]. eapply cost_le5; exact Ec.
  - unfold resolve_call in H. destruct (get_func_variants env name) as [fs|]; [|discriminate]. apply bind_Ok in H as (cands & H1 & H).
    assert (Ha : args_ok (map (fun a => (a, resolve_expr env a)) args)).
    { apply Forall_map. eapply Forall_impl; [|exact IH]. auto. }
    apply candidates_bound in H1; [|exact Ha]. rewrite map_fst_pair in H1.
    destruct (sort_by_key cands) as [|[[[c sc1] f] rargs] r] eqn:Es; [discriminate|]. injection H as <-.
    exists c. cbn [recorded_cost set_call_meta sc_calls assoc_N]. rewrite N.eqb_refl. split; [reflexivity|].
    rewrite Forall_forall in H1. specialize (H1 (c, sc1, f, rargs)). cbn [fst] in H1. cbn [weight]. apply H1. apply sort_in. rewrite Es. left. reflexivity.
Qed.

(** Agreement *)
Definition pair_ok (a : (expr * resolver) * (expr * resolver)) : Prop :=
  fst (fst a) = fst (snd a) /\ bounded (fst (fst a)) (snd (fst a)) /\ (forall sc t, snd (snd a) sc t = snd (fst a) sc t).

Lemma arg_agree mult t a a' sc cost acc : pair_ok (a, a') -> (cost + weight (fst a) * mult < bound)%N ->
  resolve_arg_with arith mult t a' (sc, cost, acc) = resolve_arg mult t a (sc, cost, acc).
Proof.
  intros (Hf & Hb & Hr) Hw. cbn [fst snd] in *. unfold resolve_arg_with, resolve_arg. rewrite <- Hf, Hr.
  destruct (snd a sc (Some t)) as [sc'|er|p] eqn:E; [cbn [bind]|reflexivity|reflexivity].
  destruct (Hb _ _ _ E) as (c & -> & Hc). cbn [bind]. rewrite Hright by nia. reflexivity.
Qed.

Definition pairs_ok (args args' : list (expr * resolver)) : Prop := Forall2 (fun a a' => pair_ok (a, a')) args args'.
Lemma pairs_bounded args args' : pairs_ok args args' -> args_ok args.
Proof. induction 1 as [|a a' args args' (_ & Hb & _) _ IH]; constructor; auto. Qed.
Lemma pairs_length args args' : pairs_ok args args' -> List.length args' = List.length args.
Proof. induction 1; cbn; congruence. Qed.
Lemma pairs_skipn n args args' : pairs_ok args args' -> pairs_ok (skipn n args) (skipn n args').
Proof. intros H. revert n. induction H as [|a a' args args' Ha H IH]; intros [|n]; cbn; try constructor; auto. Qed.

Lemma fixed_agree args args' : pairs_ok args args' -> forall ts st,
  (snd (fst st) + total (map fst (firstn (List.length ts) args)) < bound)%N ->
  resolve_fixed_with arith ts args' st = resolve_fixed ts args st.
Proof.
  induction 1 as [|a a' args args' Ha H IH]; intros ts st Hw; [destruct ts; reflexivity|].
  destruct ts as [|t ts]; [reflexivity|]. cbn [resolve_fixed_with resolve_fixed]. destruct st as [[sc cost] acc].
  cbn [List.length firstn map fold_right fst snd] in Hw. rewrite (arg_agree _ _ a) by (try exact Ha; lia).
  destruct (resolve_arg 1 t a (sc, cost, acc)) as [st1|er|p] eqn:E; [cbn [bind]|reflexivity|reflexivity].
  apply IH. apply arg_bound in E; [|apply Ha]. lia.
Qed.
Lemma variadic_agree t args args' : pairs_ok args args' -> forall st,
  (snd (fst st) + 2 * total (map fst args) < bound)%N ->
  resolve_variadic_with arith t args' st = resolve_variadic t args st.
Proof.
  induction 1 as [|a a' args args' Ha H IH]; intros st Hw; [reflexivity|].
  cbn [resolve_variadic_with resolve_variadic]. destruct st as [[sc cost] acc].
  cbn [map fold_right fst snd] in Hw. rewrite (arg_agree _ _ a) by (try exact Ha; lia).
  destruct (resolve_arg 2 t a (sc, cost, acc)) as [st1|er|p] eqn:E; [cbn [bind]|reflexivity|reflexivity].
  apply IH. apply arg_bound in E; [|apply Ha]. lia.
Qed.

Lemma call_agree f args args' raw sc t : pairs_ok args args' -> (5 + 2 * total (map fst args) < bound)%N ->
  resolve_call_for_func_with arith f args' raw sc t = resolve_call_for_func f args raw sc t.
Proof.
  intros Hp Hw. unfold resolve_call_for_func_with, resolve_call_for_func.
  destruct (match t with Some _ => _ | None => _ end) as [c0|] eqn:Ec; [|reflexivity].
  assert (H0 : (c0 <= 5)%N) by (destruct t; [eapply cost_le5; exact Ec|injection Ec as <-; lia]).
  rewrite (pairs_length _ _ Hp).
  pose proof (total_split (List.length (non_variadic_arg_types f)) args) as Hsp. cbn beta in Hsp.
  assert (Hrest : (let! st := resolve_fixed_with arith (non_variadic_arg_types f) args' (sc, c0, []) in
                match variadic_arg_type f with Some t => resolve_variadic_with arith t (skipn (List.length (non_variadic_arg_types f)) args') st | None => Ok st end) =
                (let! st := resolve_fixed (non_variadic_arg_types f) args (sc, c0, []) in
                match variadic_arg_type f with Some t => resolve_variadic t (skipn (List.length (non_variadic_arg_types f)) args) st | None => Ok st end)).
  { rewrite (fixed_agree args args' Hp) by (cbn [fst snd] in *; lia).
    destruct (resolve_fixed _ args _) as [st|er|p] eqn:E; [cbn [bind]|reflexivity|reflexivity].
    apply fixed_bound in E; [|eapply pairs_bounded; exact Hp]. cbn [fst snd] in E.
    destruct (variadic_arg_type f); [|reflexivity]. apply variadic_agree; [apply pairs_skipn; exact Hp|]. lia. }
  cbn zeta. rewrite Hrest. reflexivity.
Qed.

Lemma candidates_agree fs args args' raw sc t : pairs_ok args args' -> (5 + 2 * total (map fst args) < bound)%N ->
  try_candidates_with arith fs args' raw sc t = try_candidates fs args raw sc t.
Proof.
  intros Hp Hw. induction fs as [|f fs IH]; [reflexivity|]. cbn [try_candidates_with try_candidates]. rewrite (call_agree f args args') by assumption.
  rewrite IH. reflexivity.
Qed.

Lemma weight_arg a args : In a args -> (weight a <= total args)%N.
Proof. induction args as [|b args IH]; intros H; [contradiction|]. cbn [map fold_right]. destruct H as [->|H]; [lia|]. apply IH in H. lia. Qed.

Lemma expr_agrees e : (weight e < bound)%N -> forall sc t, resolve_expr_with arith env e sc t = resolve_expr env e sc t.
Proof.
  induction e as [id v|id name args raw IH] using expr_ind'; intros Hw sc t; [reflexivity|]. cbn [resolve_expr_with resolve_expr].
  unfold resolve_call_with, resolve_call. destruct (get_func_variants env name); [|reflexivity]. cbn [weight] in Hw.
  rewrite (candidates_agree l (map (fun a => (a, resolve_expr env a)) args)); [reflexivity| |].
  - assert (Hall : forall a, In a args -> (weight a < bound)%N) by (intros a Ha; apply weight_arg in Ha; lia).
    clear Hw. induction args as [|a args IHa]; [constructor|]. inversion IH; subst. cbn [map]. constructor.
    + split; [reflexivity|]. split; [apply expr_bounded|]. cbn [fst snd]. apply H1. apply Hall. left. reflexivity.
    + apply IHa; [assumption|]. intros b Hb. apply Hall. right. exact Hb.
  - rewrite map_fst_pair. exact Hw.
Qed.

Lemma items_agree items : Forall (fun it : spec_item => (weight (snd it) < bound)%N) items -> forall sc,
  resolve_items_with arith env sc items = resolve_items env sc items.
Proof.
  induction 1 as [|it items Hi _ IH]; intros sc; [reflexivity|]. cbn [resolve_items_with resolve_items].
  unfold resolve_item_with, resolve_item. rewrite expr_agrees by exact Hi.
  destruct (resolve_expr env (snd it) sc None) as [sc1| |]; cbn [bind]; [|reflexivity|reflexivity]. destruct (try_add_name sc1 _ _); cbn [bind]; [apply IH|reflexivity|reflexivity].
Qed.

Lemma substitutions_agree O spec : Forall (fun it : spec_item => (weight (snd it) < bound)%N) (spec_items spec) ->
  make_substitutions_with arith env O spec = make_substitutions O env spec.
Proof. intros H. unfold make_substitutions_with, make_substitutions. rewrite items_agree by exact H. reflexivity. Qed.
End Agree.

Lemma checked_right : right_below u32_end checked.
Proof.
  intros cost c mult H. unfold checked. replace (c * mult <? u32_end)%N with true by (symmetry; apply N.ltb_lt; lia).
  replace (cost + c * mult <? u32_end)%N with true by (symmetry; apply N.ltb_lt; lia). reflexivity.
Qed.
Lemma wrapping_right : right_below u32_end wrapping.
Proof. intros cost c mult H. unfold wrapping. rewrite N.mod_small by exact H. reflexivity. Qed.

(** ** Where it does matter *)
Fixpoint distinctb (l : list N) : bool := match l with [] => true | x :: r => negb (existsb (N.eqb x) r) && distinctb r end.
Lemma distinctb_NoDup l : distinctb l = true -> NoDup l.
Proof.
  induction l as [|x l IH]; intros H; [constructor|]. cbn in H. apply andb_true_iff in H as [H1 H2]. constructor; [|auto].
  intros Hin. apply negb_true_iff in H1. assert (existsb (N.eqb x) l = true) by (apply existsb_exists; exists x; split; [exact Hin|apply N.eqb_refl]). congruence.
Qed.
Fixpoint nest (n : nat) (id : N) : expr :=
  match n with O => EValue id (VIdent (txt "p")) | S n => ECall id (txt "concat") [nest n (N.succ id)] None end.
(** [p = to_path(x), a = e] *)
Definition with_path (e : expr) : alias_spec :=
  spec_of [(txt "p", ECall 10000 (txt "to_path") [EValue 10001 (VIdent (txt "x"))] None); (txt "a", e)].
(** [concat(x, concat(x, p, concat(p), concat(concat(p)), ..))] *)
Definition wide : expr :=
  ECall 1 (txt "concat") [EValue 2 (VIdent (txt "x"));
    ECall 1000 (txt "concat") (EValue 1001 (VIdent (txt "x")) :: map (fun k => nest k (2000 + 100 * N.of_nat k)%N) (seq 0 28)) None] None.

Lemma overflow_panics : exists spec v, NoDup (item_ids (spec_items spec)) /\ List.length (spec_items spec) = 2 /\
  make_substitutions ascii env0 spec = Ok v /\ make_substitutions_with checked env0 ascii spec = Panic POverflow.
Proof.
  exists (with_path (nest 30 0)). eexists. split; [apply distinctb_NoDup; vm_compute; reflexivity|]. split; [reflexivity|]. split; vm_compute; reflexivity.
Qed.
Lemma overflow_chooses : exists spec p x ts, NoDup (item_ids (spec_items spec)) /\
  make_substitutions ascii env0 spec = Ok [p; (txt "a", VIdent x)] /\
  make_substitutions_with wrapping env0 ascii spec = Ok [p; (txt "a", VTokens ts)] /\ List.length ts = 2.
Proof.
  exists (with_path wide). do 3 eexists. split; [apply distinctb_NoDup; vm_compute; reflexivity|].
  split; [vm_compute; reflexivity|]. split; [vm_compute; reflexivity|]. reflexivity.
Qed.
