(** The id-keyed resolve and eval phases implement the elaboration semantics. *)
From Verif Require Import Base BaseFacts Token Types Values Ast Env Resolve Eval SpecElab SpecScope.

Lemma all2_Forall2 {A B} (P : A -> B -> Prop) l l' : all2 P l l' <-> Forall2 P l l'.
Proof.
  revert l'; induction l as [|x l IH]; intros [|y l']; cbn; split; intros H; try contradiction; try inversion H; subst.
  - constructor.
  - exact I.
  - constructor; [assumption|]. apply IH; assumption.
  - split; [assumption|]. apply IH; assumption.
Qed.

(** ** Sorting by key *)
Section Min.
Context {A : Type} (lt : A -> A -> bool).
Hypothesis lt_trans : forall a b c, lt a b = true -> lt b c = true -> lt a c = true.
Hypothesis lt_neg_trans : forall a b c, lt a b = false -> lt b c = false -> lt a c = false.
Hypothesis lt_irrefl : forall a, lt a a = false.

Fixpoint leftmost (l : list A) : option A :=
  match l with
  | [] => None
  | x :: r => match leftmost r with
              | None => Some x
              | Some y => if lt y x then Some y else Some x
              end
  end.

Definition foldmin (m : A) (l : list A) : A := fold_left (fun m x => if lt x m then x else m) l m.

Lemma foldmin_leftmost l : forall m,
  foldmin m l = match leftmost l with None => m | Some y => if lt y m then y else m end.
Proof.
  induction l as [|x r IH]; intros m; [reflexivity|].
  unfold foldmin. cbn [fold_left leftmost]. fold (foldmin (if lt x m then x else m) r). rewrite IH.
  destruct (leftmost r) as [y|]; [|reflexivity].
  destruct (lt y x) eqn:Eyx.
  - destruct (lt x m) eqn:Exm.
    + rewrite Eyx, (lt_trans y x m) by assumption. reflexivity.
    + reflexivity.
  - destruct (lt x m) eqn:Exm.
    + rewrite Eyx. reflexivity.
    + rewrite (lt_neg_trans y x m) by assumption. reflexivity.
Qed.

Lemma leftmost_cons x r : leftmost (x :: r) = Some (foldmin x r).
Proof. rewrite foldmin_leftmost. cbn. destruct (leftmost r) as [y|]; [|reflexivity]. destruct (lt y x); reflexivity. Qed.

Lemma leftmost_in l x : leftmost l = Some x -> In x l.
Proof.
  revert x; induction l as [|y l IH]; intros x H; [discriminate|]. cbn in H.
  destruct (leftmost l) as [z|].
  - destruct (lt z y); injection H as <-; [right; apply IH; reflexivity|left; reflexivity].
  - injection H as <-. left; reflexivity.
Qed.

Lemma leftmost_min l x : leftmost l = Some x -> forall y, In y l -> lt y x = false.
Proof.
  revert x; induction l as [|z l IH]; intros x H y Hy; [contradiction|]. cbn in H.
  destruct (leftmost l) as [w|] eqn:E.
  - destruct (lt w z) eqn:Ew; injection H as <-.
    + destruct Hy as [<-|Hy]; [|apply (IH w eq_refl); exact Hy].
      destruct (lt z w) eqn:Ez; [|reflexivity]. rewrite <- (lt_irrefl z). symmetry. apply (lt_trans z w z); assumption.
    + destruct Hy as [<-|Hy]; [apply lt_irrefl|]. apply (lt_neg_trans y w z); [apply (IH w eq_refl); exact Hy|exact Ew].
  - injection H as <-. destruct l as [|w l]; [|rewrite leftmost_cons in E; discriminate].
    destruct Hy as [<-|[]]. apply lt_irrefl.
Qed.

Lemma leftmost_none l : leftmost l = None -> l = [].
Proof. destruct l as [|x l]; [reflexivity|]. rewrite leftmost_cons. discriminate. Qed.
End Min.

Definition key_lt (a b : key) : Prop :=
  let '(c1, v1, n1, i1) := a in
  let '(c2, v2, n2, i2) := b in
  (c1 < c2)%N \/ (c1 = c2 /\ (N.b2n v1 < N.b2n v2 \/ (v1 = v2 /\ ((n1 < n2)%nat \/ (n1 = n2 /\ i1 < i2)))))%N.

Lemma key_ltb_lt a b : key_ltb a b = true <-> key_lt a b.
Proof.
  destruct a as [[[c1 v1] n1] i1], b as [[[c2 v2] n2] i2]. unfold key_ltb, key_lt.
  rewrite orb_true_iff, andb_true_iff, N.ltb_lt, N.eqb_eq, orb_true_iff, !andb_true_iff, negb_true_iff,
    eqb_true_iff, orb_true_iff, andb_true_iff, Nat.ltb_lt, Nat.eqb_eq, N.ltb_lt.
  destruct v1, v2; cbn; intuition (try discriminate; try lia).
Qed.

Lemma b2n_eq a b : N.b2n a = N.b2n b -> a = b.
Proof. destruct a, b; cbn; congruence. Qed.

Lemma key_trans a b c : key_ltb a b = true -> key_ltb b c = true -> key_ltb a c = true.
Proof.
  rewrite !key_ltb_lt. destruct a as [[[c1 v1] n1] i1], b as [[[c2 v2] n2] i2], c as [[[c3 v3] n3] i3].
  unfold key_lt. destruct v1, v2, v3; cbn; intuition (try discriminate; try lia).
Qed.
Lemma key_neg_trans a b c : key_ltb a b = false -> key_ltb b c = false -> key_ltb a c = false.
Proof.
  intros H1 H2. destruct (key_ltb a c) eqn:E; [|reflexivity]. exfalso.
  assert (H1' : ~ key_lt a b) by (rewrite <- key_ltb_lt, H1; discriminate).
  assert (H2' : ~ key_lt b c) by (rewrite <- key_ltb_lt, H2; discriminate).
  apply key_ltb_lt in E. clear H1 H2. revert H1' H2' E.
  destruct a as [[[c1 v1] n1] i1], b as [[[c2 v2] n2] i2], c as [[[c3 v3] n3] i3].
  unfold key_lt. destruct v1, v2, v3; cbn; intuition (try discriminate; try lia).
Qed.
Lemma key_irrefl a : key_ltb a a = false.
Proof.
  destruct (key_ltb a a) eqn:E; [|reflexivity]. apply key_ltb_lt in E.
  destruct a as [[[c1 v1] n1] i1]. unfold key_lt in E. lia.
Qed.

Definition cand_lt (a b : candidate) : bool := key_ltb (cand_key a) (cand_key b).

Lemma insert_head x l : hd_error (insert_sorted x l) =
  Some (match hd_error l with None => x | Some y => if cand_lt x y then x else y end).
Proof.
  destruct l as [|y r]; [reflexivity|]. cbn. unfold cand_lt.
  destruct (key_ltb (cand_key x) (cand_key y)); reflexivity.
Qed.

Lemma sort_head_aux l : forall acc m, hd_error acc = Some m ->
  hd_error (fold_left (fun acc x => insert_sorted x acc) l acc) = Some (foldmin cand_lt m l).
Proof.
  induction l as [|x l IH]; intros acc m H; [exact H|]. cbn [fold_left].
  unfold foldmin. cbn [fold_left]. apply IH. rewrite insert_head, H. reflexivity.
Qed.

Lemma sort_head l : hd_error (sort_by_key l) = leftmost cand_lt l.
Proof.
  destruct l as [|x l]; [reflexivity|].
  rewrite leftmost_cons; [|intros a b c; apply key_trans|intros a b c; apply key_neg_trans].
  unfold sort_by_key. cbn [fold_left insert_sorted]. apply sort_head_aux. reflexivity.
Qed.

Definition entry := (N * func * list texpr)%type.
Definition entry_lt (a b : entry) : bool := betterb (fst a) (fst b).

Lemma best_leftmost l : best l = leftmost entry_lt l.
Proof. induction l as [|x r IH]; [reflexivity|]. cbn [best leftmost]. rewrite IH. reflexivity. Qed.

Lemma leftmost_rel {A B} (R : A -> B -> Prop) (la : A -> A -> bool) (lb : B -> B -> bool) l l' :
  (forall a a' b b', R a b -> R a' b' -> la a a' = lb b b') ->
  Forall2 R l l' ->
  match leftmost la l, leftmost lb l' with
  | Some a, Some b => R a b
  | None, None => True
  | _, _ => False
  end.
Proof.
  intros HR H. induction H as [|a b l l' Hab Hl IH]; [exact I|]. cbn [leftmost].
  destruct (leftmost la l) as [x|], (leftmost lb l') as [y|]; try contradiction; [|exact Hab].
  rewrite (HR x a y b IH Hab). destruct (lb y b); assumption.
Qed.

Lemma given_cases f args raw as' : as' = given f args raw ->
  as' = args \/ exists rid ts, raw = Some (rid, ts) /\ as' = [EValue rid (VRaw ts)].
Proof.
  unfold given. intros ->. destruct (f_arg_types f) as [|t ts]; [tauto|]. destruct t, ts; try tauto.
  destruct raw as [[rid ts]|]; [|tauto]. right. eauto.
Qed.

Lemma encodes_agree te : forall sc sc' e,
  (forall id, In id (ids e) -> same_at sc sc' id) -> encodes sc te e -> encodes sc' te e.
Proof.
  induction te as [v t|f tes t IH] using texpr_ind'; intros sc sc' e Hag He; destruct e as [id v'|id name args raw];
    cbn [encodes] in *; try contradiction.
  - destruct He as (-> & c & Hc). split; [reflexivity|]. exists c.
    destruct (Hag id) as [-> _]; [left; reflexivity|exact Hc].
  - destruct He as (as' & c & Hc & Has & Hall). exists as', c.
    split; [destruct (Hag id) as [_ ->]; [left; reflexivity|exact Hc]|]. split; [exact Has|].
    assert (Hin : forall a, In a as' -> forall i, In i (ids a) -> In i (ids (ECall id name args raw))).
    { intros a Ha i Hi. cbn [ids]. right. apply in_or_app. destruct (given_cases f args raw as' Has) as [->|(rid & ts & -> & ->)].
      - left. apply in_flat_map. eauto.
      - right. destruct Ha as [<-|[]]. exact Hi. }
    clear Has Hc. revert as' Hall Hin. induction IH as [|te tes Hte Htes IHtes]; intros [|a as'] Hall Hin; cbn in *; try contradiction; [exact I|].
    destruct Hall as [Ha Hall]. split.
    + apply (Hte sc sc' a); [|exact Ha]. intros i Hi. apply Hag. apply (Hin a); auto.
    + apply IHtes; [exact Hall|]. intros b Hb. apply Hin. auto.
Qed.

Lemma all2_encodes_agree sc sc' tes : forall l,
  (forall a, In a l -> forall id, In id (ids a) -> same_at sc sc' id) ->
  all2 (encodes sc) tes l -> all2 (encodes sc') tes l.
Proof.
  induction tes as [|te tes IH]; intros [|a l] H Hall; cbn in *; try contradiction; [exact I|].
  destruct Hall as [Ha Hall]. split; [|apply IH; [intros b Hb; apply (H b); auto|exact Hall]].
  apply (encodes_agree te sc sc' a); [|exact Ha]. intros id Hid. apply (H a); auto.
Qed.

Lemma frame_refl l sc : frame l sc sc.
Proof. split; [reflexivity|]. split; reflexivity. Qed.
Lemma frame_trans l l' sc1 sc2 sc3 : frame l sc1 sc2 -> frame l' sc2 sc3 -> frame (l ++ l') sc1 sc3.
Proof.
  intros [A1 F1] [A2 F2]. split; [congruence|]. intros id Hid.
  assert (~ In id l /\ ~ In id l') as [H1 H2] by (split; intros H; apply Hid; apply in_or_app; auto).
  destruct (F1 id H1), (F2 id H2). split; congruence.
Qed.
Lemma frame_incl l l' sc sc' : incl l l' -> frame l sc sc' -> frame l' sc sc'.
Proof. intros Hi [A F]. split; [exact A|]. intros id Hid. apply F. intros H. apply Hid. apply Hi. exact H. Qed.

Lemma alias_ok_frame G sc sc' l : alias_ok G sc -> frame l sc sc' -> apart l sc -> alias_ok G sc'.
Proof.
  unfold alias_ok, apart. intros Ha [A F] Hap. rewrite A. clear A.
  revert Ha Hap. generalize (sc_aliases sc). intros al Ha.
  induction Ha as [|a g al G [H1 H2] Ha IH]; intros Hap; constructor.
  - split; [exact H1|]. rewrite <- H2. unfold type_at. destruct (F (snd a)) as [-> ->]; [|reflexivity].
    apply Hap. left; reflexivity.
  - apply IH. intros b Hb. apply Hap. right; exact Hb.
Qed.
Lemma apart_incl l l' sc : incl l l' -> apart l' sc -> apart l sc.
Proof. intros Hi H a Ha Hin. apply (H a Ha). apply Hi. exact Hin. Qed.
Lemma apart_frame l l' sc sc' : frame l' sc sc' -> apart l sc -> apart l sc'.
Proof. intros [A _] H. unfold apart. rewrite A. exact H. Qed.
Lemma fresh_incl l l' sc : incl l l' -> fresh l' sc -> fresh l sc.
Proof. intros Hi H id Hid. apply H. apply Hi. exact Hid. Qed.
Lemma fresh_frame l l' sc sc' : frame l' sc sc' -> (forall id, In id l -> ~ In id l') -> fresh l sc -> fresh l sc'.
Proof. intros [_ F] Hd H id Hid. destruct (F id (Hd id Hid)) as [-> _]. apply H. exact Hid. Qed.

Lemma NoDup_app_disj {A} (l l' : list A) : NoDup (l ++ l') -> NoDup l /\ NoDup l' /\ (forall x, In x l -> ~ In x l').
Proof.
  induction l as [|x l IH]; cbn; intros H; [repeat split; [constructor|exact H|contradiction]|].
  inversion H as [|? ? Hx Hl]; subst. destruct (IH Hl) as (H1 & H2 & H3). repeat split.
  - constructor; [|exact H1]. intros Hin. apply Hx. apply in_or_app; auto.
  - exact H2.
  - intros y [<-|Hy]; [|apply H3; exact Hy]. intros Hin. apply Hx. apply in_or_app; auto.
Qed.

Lemma from_type_ok G sc v : alias_ok G sc -> from_type sc v = Ok (static_type G v).
Proof.
  intros H. destruct v as [x| | | | | | |]; try reflexivity. cbn.
  unfold alias_ok in H. induction H as [|a g al G [H1 H2] Ha IH]; [reflexivity|].
  destruct a as [y id], g as [y' t]. cbn in *. subst y'. destruct (str_eqb x y); [|exact IH].
  unfold type_at in H2. destruct (assoc_N id (sc_values sc)); [congruence|].
  destruct (assoc_N id (sc_calls sc)); [congruence|discriminate].
Qed.

(** ** Arguments *)
Fixpoint resolve_params (ps : list (ty * N)) (args : list (expr * resolver))
  (st : scope * N * list expr) : res (scope * N * list expr) :=
  match ps, args with
  | (t, m) :: ps', a :: args' => let! st' := resolve_arg m t a st in resolve_params ps' args' st'
  | _, _ => Ok st
  end.

Lemma resolve_fixed_params ts : forall args st,
  resolve_fixed ts args st = resolve_params (map (fun t => (t, 1%N)) ts) args st.
Proof.
  induction ts as [|t ts IH]; intros [|a args] st; try reflexivity. cbn.
  destruct (resolve_arg 1 t a st); [apply IH|reflexivity|reflexivity].
Qed.

Lemma resolve_variadic_params t : forall args st,
  resolve_variadic t args st = resolve_params (repeat (t, 2%N) (length args)) args st.
Proof.
  induction args as [|a args IH]; intros st; [reflexivity|]. cbn.
  destruct (resolve_arg 2 t a st); [apply IH|reflexivity|reflexivity].
Qed.

Lemma resolve_params_app ps ps' : forall args st, length ps <= length args ->
  resolve_params (ps ++ ps') args st =
  let! st' := resolve_params ps args st in resolve_params ps' (skipn (length ps) args) st'.
Proof.
  induction ps as [|[t m] ps IH]; intros [|a args] st Hl; cbn in Hl; try lia; try reflexivity.
  cbn. destruct (resolve_arg m t a st) as [st'| |]; [|reflexivity|reflexivity]. cbn [bind].
  apply IH. lia.
Qed.

Lemma filter_length_le {A} (p : A -> bool) l : length (filter p l) <= length l.
Proof. induction l as [|x l IH]; [constructor|]. cbn. destruct (p x); cbn; lia. Qed.

Lemma variadic_some f : match variadic_arg_type f with
  | Some _ => is_variadic f = true /\ length (non_variadic_arg_types f) < num_args f
  | None => is_variadic f = false /\ length (non_variadic_arg_types f) = num_args f
  end.
Proof.
  unfold variadic_arg_type, is_variadic, non_variadic_arg_types, num_args.
  induction (f_arg_types f) as [|t l IH]; cbn; [auto|].
  destruct t; cbn; try (destruct (find is_variadic_ty l) as [[]|]; destruct IH; split; auto; lia).
  all: split; [reflexivity|]; pose proof (filter_length_le (fun t => negb (is_variadic_ty t)) l); lia.
Qed.

(** The second half of resolve_call_for_func in terms of [params]. *)
Lemma arity_params f (args : list (expr * resolver)) sc c0 :
  (if (if is_variadic f then Nat.leb (num_args f) (length args) else Nat.eqb (num_args f) (length args)) then
     let! st := resolve_fixed (non_variadic_arg_types f) args (sc, c0, []) in
     match variadic_arg_type f with
     | Some t => resolve_variadic t (skipn (length (non_variadic_arg_types f)) args) st
     | None => Ok st
     end
   else Err (SignatureError (f_name f))) =
  match params f (length args) with
  | Some ps => resolve_params ps args (sc, c0, [])
  | None => Err (SignatureError (f_name f))
  end /\
  match params f (length args) with Some ps => length ps = length args | None => True end.
Proof.
  unfold params. pose proof (variadic_some f) as Hv.
  destruct (variadic_arg_type f) as [t|].
  - destruct Hv as [-> Hl]. destruct (Nat.leb_spec (num_args f) (length args)) as [Hle|Hle]; [|auto].
    split.
    + rewrite resolve_params_app by (rewrite map_length; lia). rewrite resolve_fixed_params, map_length.
      destruct (resolve_params _ args _); [|reflexivity|reflexivity]. cbn [bind].
      rewrite resolve_variadic_params, skipn_length. reflexivity.
    + rewrite app_length, map_length, repeat_length. lia.
  - destruct Hv as [-> Hl]. destruct (Nat.eqb_spec (num_args f) (length args)) as [He|He]; [|auto].
    split.
    + rewrite resolve_fixed_params. destruct (resolve_params _ args _); reflexivity.
    + rewrite map_length. lia.
Qed.

Section Refine.
Context (env : environment).

Definition resolves (G : tenv) (e : expr) : Prop :=
  forall sc expected,
  alias_ok G sc -> NoDup (ids e) -> apart (ids e) sc -> fresh (ids e) sc ->
  match elab env G e expected with
  | inl (te, c) =>
      exists sc', resolve_expr env e sc expected = Ok sc' /\ frame (ids e) sc sc' /\
        encodes sc' te e /\ recorded_cost sc' e = Ok c /\
        type_at sc' (expr_id e) = Some (target_of te)
  | inr er => resolve_expr env e sc expected = Err er /\ er <> InternalError
  end.

Definition with_resolvers (args : list expr) := map (fun a => (a, resolve_expr env a)) args.

Lemma resolve_params_ok G args : Forall (resolves G) args ->
  forall ps sc cost acc,
  length ps = length args ->
  alias_ok G sc -> NoDup (flat_map ids args) -> apart (flat_map ids args) sc -> fresh (flat_map ids args) sc ->
  match elab_args ps (map (elab env G) args) with
  | Some (c, tes) =>
      exists sc', resolve_params ps (with_resolvers args) (sc, cost, acc) = Ok (sc', (cost + c)%N, acc ++ args) /\
        frame (flat_map ids args) sc sc' /\ all2 (encodes sc') tes args
  | None => exists er, resolve_params ps (with_resolvers args) (sc, cost, acc) = Err er /\ er <> InternalError
  end.
Proof.
  induction 1 as [|e args He Hargs IH]; intros ps sc cost acc Hl Hal Hnd Hap Hfr; (destruct ps as [|[t m] ps]; [|]); cbn in Hl; try discriminate Hl.
  - cbn. exists sc. rewrite N.add_0_r, app_nil_r. repeat split.
  - injection Hl as Hl. cbn [flat_map] in *. apply NoDup_app_disj in Hnd as (Hnd1 & Hnd2 & Hdisj).
    cbn [map elab_args with_resolvers resolve_params resolve_arg]. unfold resolve_arg. cbn [fst snd].
    specialize (He sc (Some t) Hal Hnd1 (apart_incl _ _ _ (incl_appl _ (incl_refl _)) Hap)
                  (fresh_incl _ _ _ (incl_appl _ (incl_refl _)) Hfr)).
    destruct (elab env G e (Some t)) as [[te c]|er].
    + destruct He as (sc1 & -> & Hf1 & Henc1 & Hc1 & Ht1). cbn [bind]. rewrite Hc1. cbn [bind].
      assert (Hd' : forall id, In id (flat_map ids args) -> ~ In id (ids e)) by (intros id Hi Hi'; exact (Hdisj id Hi' Hi)).
      specialize (IH ps sc1 (cost + c * m)%N (acc ++ [e]) Hl
        (alias_ok_frame _ _ _ _ Hal Hf1 (apart_incl _ _ _ (incl_appl _ (incl_refl _)) Hap)) Hnd2
        (apart_frame _ _ _ _ Hf1 (apart_incl _ _ _ (incl_appr _ (incl_refl _)) Hap))
        (fresh_frame _ _ _ _ Hf1 Hd' (fresh_incl _ _ _ (incl_appr _ (incl_refl _)) Hfr))).
      fold (with_resolvers args). destruct (elab_args ps (map (elab env G) args)) as [[c' tes]|].
      * destruct IH as (sc2 & -> & Hf2 & Hall). exists sc2. rewrite <- app_assoc. cbn [app].
        split; [f_equal; f_equal; f_equal; lia|]. split; [exact (frame_trans _ _ _ _ _ Hf1 Hf2)|].
        split; [|exact Hall]. apply (encodes_agree te sc1 sc2 e); [|exact Henc1].
        intros id Hid. apply Hf2. apply Hdisj. exact Hid.
      * exact IH.
    + destruct He as [-> Hne]. cbn [bind].
      assert (E : match elab_args ps (map (elab env G) args) with Some _ | None => @None (N * list texpr) end = None)
        by (destruct (elab_args ps _); reflexivity).
      exists er. split; [reflexivity|exact Hne].
Qed.

Definition raw_ids (raw : option (N * list tt)) : list N :=
  match raw with Some (rid, _) => [rid] | None => [] end.

Lemma resolve_call_for_func_ok G f args raw sc expected :
  Forall (resolves G) args ->
  alias_ok G sc -> NoDup (flat_map ids args ++ raw_ids raw) ->
  apart (flat_map ids args ++ raw_ids raw) sc -> fresh (flat_map ids args ++ raw_ids raw) sc ->
  match elab_func f (map (elab env G) args) (option_map snd raw) expected with
  | Some (c, tes) =>
      exists sc' as', resolve_call_for_func f (with_resolvers args) raw sc expected = Ok (sc', c, as') /\
        frame (flat_map ids args ++ raw_ids raw) sc sc' /\ as' = given f args raw /\ all2 (encodes sc') tes as'
  | None => exists er, resolve_call_for_func f (with_resolvers args) raw sc expected = Err er /\ er <> InternalError
  end.
Proof.
  intros Hargs Hal Hnd Hap Hfr. apply NoDup_app_disj in Hnd as (Hnd & _ & _).
  unfold elab_func, resolve_call_for_func.
  destruct (match expected with Some t => coercion_cost (f_out_type f) t | None => Some 0%N end) as [c0|];
    [|exists TypeError; split; [reflexivity|discriminate]].
  pose proof (arity_params f (with_resolvers args) sc c0) as [Har Hlen].
  unfold with_resolvers in Har, Hlen. rewrite map_length in Har, Hlen. fold (with_resolvers args) in Har.
  rewrite map_length.
  assert (Hgen : given f args raw = args ->
    match match params f (length args) with
          | None => None
          | Some ps => match elab_args ps (map (elab env G) args) with
                       | Some (c, tes) => Some ((c0 + c)%N, tes)
                       | None => None
                       end
          end with
    | Some (c, tes) =>
        exists sc' as', match params f (length args) with
          | Some ps => resolve_params ps (with_resolvers args) (sc, c0, [])
          | None => Err (SignatureError (f_name f))
          end = Ok (sc', c, as') /\
          frame (flat_map ids args ++ raw_ids raw) sc sc' /\ as' = given f args raw /\ all2 (encodes sc') tes as'
    | None => exists er, match params f (length args) with
          | Some ps => resolve_params ps (with_resolvers args) (sc, c0, [])
          | None => Err (SignatureError (f_name f))
          end = Err er /\ er <> InternalError
    end).
  { intros Hgiven. destruct (params f (length args)) as [ps|]; [|eexists; split; [reflexivity|discriminate]].
    pose proof (resolve_params_ok G args Hargs ps sc c0 [] Hlen Hal Hnd
      (apart_incl _ _ _ (incl_appl _ (incl_refl _)) Hap) (fresh_incl _ _ _ (incl_appl _ (incl_refl _)) Hfr)) as H.
    destruct (elab_args ps (map (elab env G) args)) as [[c tes]|]; [|exact H].
    destruct H as (sc' & H1 & H2 & H3). exists sc', args. split; [exact H1|].
    split; [eapply frame_incl; [|exact H2]; apply incl_appl; apply incl_refl|]. split; [symmetry; exact Hgiven|exact H3]. }
  rewrite <- Har in Hgen. clear Har. unfold given in Hgen |- *.
  assert (Hl : length (with_resolvers args) = length args) by apply map_length.
  rewrite Hl.
  destruct (f_arg_types f) as [|t0 ts0] eqn:Ef; [exact (Hgen eq_refl)|].
  destruct t0; try exact (Hgen eq_refl). destruct ts0; try exact (Hgen eq_refl).
  destruct raw as [[rid ts]|]; [|exact (Hgen eq_refl)]. cbn [option_map snd].
  eexists; eexists. split; [reflexivity|]. split.
  { split; [reflexivity|]. cbn [raw_ids]. intros id Hid. split; [|reflexivity]. cbn.
    destruct (N.eqb_spec id rid) as [->|Hne]; [|reflexivity]. exfalso. apply Hid. apply in_or_app. right; left; reflexivity. }
  split; [reflexivity|]. cbn. rewrite N.eqb_refl. split; [|exact I].
  split; [reflexivity|]. eexists; reflexivity.
Qed.

Lemma try_candidates_ok G fs args raw sc expected :
  Forall (resolves G) args ->
  alias_ok G sc -> NoDup (flat_map ids args ++ raw_ids raw) ->
  apart (flat_map ids args ++ raw_ids raw) sc -> fresh (flat_map ids args ++ raw_ids raw) sc ->
  exists cands, try_candidates fs (with_resolvers args) raw sc expected = Ok cands /\
    Forall2 (fun (x : candidate) (y : entry) =>
      let '(cost, sc', f, as') := x in
      let '(c, f', tes) := y in
      cost = c /\ f = f' /\ frame (flat_map ids args ++ raw_ids raw) sc sc' /\
      as' = given f args raw /\ all2 (encodes sc') tes as')
      cands (viable fs (map (elab env G) args) (option_map snd raw) expected).
Proof.
  intros Hargs Hal Hnd Hap Hfr. induction fs as [|f fs (cands & IH1 & IH2)]; cbn [try_candidates viable];
    [exists []; split; [reflexivity|constructor]|].
  pose proof (resolve_call_for_func_ok G f args raw sc expected Hargs Hal Hnd Hap Hfr) as H.
  destruct (elab_func f _ _ expected) as [[c tes]|].
  - destruct H as (sc' & as' & -> & H2 & H3 & H4). rewrite IH1. cbn [bind].
    eexists. split; [reflexivity|]. constructor; [|exact IH2]. auto.
  - destruct H as (er & -> & Hne). exists cands. split; [|exact IH2]. destruct er; congruence.
Qed.

Lemma resolve_expr_ok G e : resolves G e.
Proof.
  induction e as [id v|id name args raw IH] using expr_ind'; intros sc expected Hal Hnd Hap Hfr.
  - cbn [elab resolve_expr]. unfold resolve_value. rewrite (from_type_ok G sc v Hal). cbn [bind].
    destruct (coercion_cost _ _) as [c|]; [|split; [reflexivity|discriminate]].
    eexists. split; [reflexivity|]. split.
    { split; [reflexivity|]. intros i Hi. split; [|reflexivity]. cbn.
      destruct (N.eqb_spec i id) as [->|Hne]; [|reflexivity]. exfalso. apply Hi. left; reflexivity. }
    cbn. unfold type_at. cbn. rewrite N.eqb_refl. cbn. repeat split. eexists; reflexivity.
  - cbn [ids] in *. fold (raw_ids raw) in *. inversion Hnd as [|? ? Hid Hnd']; subst.
    cbn [elab resolve_expr]. unfold resolve_call. fold (with_resolvers args).
    destruct (get_func_variants env name) as [fs|]; [|split; [reflexivity|discriminate]].
    assert (Hap' : apart (flat_map ids args ++ raw_ids raw) sc) by (eapply apart_incl; [|exact Hap]; apply incl_tl; apply incl_refl).
    assert (Hfr' : fresh (flat_map ids args ++ raw_ids raw) sc) by (eapply fresh_incl; [|exact Hfr]; apply incl_tl; apply incl_refl).
    destruct (try_candidates_ok G fs args raw sc expected IH Hal Hnd' Hap' Hfr') as (cands & -> & HF). cbn [bind].
    pose proof (sort_head cands) as Hh. rewrite best_leftmost.
    match type of HF with Forall2 ?R _ _ =>
      assert (Hc : forall a a' b b', R a b -> R a' b' -> cand_lt a a' = entry_lt b b')
    end.
    { intros [[[c1 s1] f1] l1] [[[c2 s2] f2] l2] [[c3 f3] t3] [[c4 f4] t4] (-> & -> & _) (-> & -> & _). reflexivity. }
    pose proof (leftmost_rel _ cand_lt entry_lt cands _ Hc HF) as Hm.
    destruct (leftmost entry_lt _) as [[[c f] tes]|].
    + destruct (leftmost cand_lt cands) as [[[[c' sc'] f'] as']|] eqn:E; [|contradiction].
      destruct Hm as (-> & -> & Hf & Has & Hall).
      destruct (sort_by_key cands) as [|x r]; [discriminate|]. cbn in Hh. injection Hh as ->.
      eexists. split; [reflexivity|]. destruct Hf as [A F]. split.
      { split; [exact A|]. intros i Hi. cbn in Hi. destruct (F i) as [F1 F2]; [tauto|]. split; [exact F1|].
        cbn. destruct (N.eqb_spec i id) as [->|Hne]; [|exact F2]. exfalso. apply Hi. left; reflexivity. }
      split.
      { cbn. rewrite N.eqb_refl. eexists; eexists. split; [reflexivity|]. split; [exact Has|].
        assert (Hin : forall a, In a as' -> forall i, In i (ids a) -> In i (flat_map ids args ++ raw_ids raw)).
        { intros a Ha i Hi. apply in_or_app. destruct (given_cases f args raw as' Has) as [->|(rid & ts & -> & ->)].
          - left. apply in_flat_map. eauto.
          - right. destruct Ha as [<-|[]]. exact Hi. }
        apply (all2_encodes_agree sc'); [|exact Hall]. intros a Ha i Hi. split; [reflexivity|]. cbn.
        destruct (N.eqb_spec i id) as [->|Hne]; [|reflexivity]. exfalso. apply Hid. apply (Hin a); auto. }
      split; [cbn; rewrite N.eqb_refl; reflexivity|].
      cbn [expr_id]. unfold type_at. cbn. destruct (F id Hid) as [-> _]. rewrite (Hfr id) by (left; reflexivity).
      rewrite N.eqb_refl. reflexivity.
    + destruct (leftmost cand_lt cands) as [x|] eqn:E; [contradiction|].
      destruct (sort_by_key cands) as [|x r]; [|discriminate]. split; [reflexivity|discriminate].
Qed.

(** ** Items *)
Lemma assoc_alias_ok G sc x : alias_ok G sc ->
  match assoc_str x (sc_aliases sc), assoc_str x G with
  | Some _, Some _ | None, None => True
  | _, _ => False
  end.
Proof.
  unfold alias_ok. intros H. induction H as [|[y id] [y' t] al G [H1 H2] Ha IH]; [exact I|]. cbn in *. subst y'.
  destruct (str_eqb x y); [exact I|exact IH].
Qed.

Lemma expr_id_in e : In (expr_id e) (ids e).
Proof. destruct e; left; reflexivity. Qed.

Lemma resolve_items_ok items : forall G sc,
  alias_ok G sc -> NoDup (item_ids items) -> apart (item_ids items) sc -> fresh (item_ids items) sc ->
  match elab_items env G items with
  | Ok tis =>
      exists sc', resolve_items env sc items = Ok sc' /\
        (forall id, ~ In id (item_ids items) -> same_at sc sc' id) /\
        Forall2 (fun it ti => fst it = fst ti /\ encodes sc' (snd ti) (snd it)) items tis
  | Err er => resolve_items env sc items = Err er
  | Panic _ => False
  end.
Proof.
  induction items as [|[name e] items IH]; intros G sc Hal Hnd Hap Hfr; cbn [elab_items resolve_items].
  - exists sc. repeat split. constructor.
  - unfold item_ids in Hnd, Hap, Hfr. cbn [flat_map snd] in Hnd, Hap, Hfr. fold (item_ids items) in Hnd, Hap, Hfr.
    apply NoDup_app_disj in Hnd as (Hnd1 & Hnd2 & Hdisj).
    unfold resolve_item. cbn [fst snd].
    pose proof (resolve_expr_ok G e sc None Hal Hnd1 (apart_incl _ _ _ (incl_appl _ (incl_refl _)) Hap)
                  (fresh_incl _ _ _ (incl_appl _ (incl_refl _)) Hfr)) as H.
    destruct (elab env G e None) as [[te c]|er].
    + destruct H as (sc1 & -> & Hf & Henc & _ & Hty). cbn [bind].
      assert (Hal1 : alias_ok G sc1) by (eapply alias_ok_frame; [exact Hal|exact Hf|]; eapply apart_incl; [|exact Hap]; apply incl_appl; apply incl_refl).
      pose proof (assoc_alias_ok G sc1 name Hal1) as Has. unfold try_add_name.
      destruct (assoc_str name G); destruct (assoc_str name (sc_aliases sc1)); try contradiction; [reflexivity|].
      cbn [bind].
      match goal with |- context [resolve_items env ?s items] => set (sc2 := s) end.
      assert (Hal2 : alias_ok ((name, target_of te) :: G) sc2).
      { unfold alias_ok, sc2. cbn. constructor; [split; [reflexivity|exact Hty]|]. exact Hal1. }
      assert (Hap2 : apart (item_ids items) sc2).
      { intros a [<-|Ha]; cbn.
        - apply Hdisj. apply expr_id_in.
        - destruct Hf as [A _]. rewrite A in Ha. intros Hin. apply (Hap a Ha). apply in_or_app. auto. }
      assert (Hfr2 : fresh (item_ids items) sc2).
      { intros id Hid. unfold sc2. cbn. destruct Hf as [_ F]. destruct (F id) as [-> _].
        - intros Hi. exact (Hdisj id Hi Hid).
        - apply Hfr. apply in_or_app. auto. }
      specialize (IH ((name, target_of te) :: G) sc2 Hal2 Hnd2 Hap2 Hfr2).
      destruct (elab_items env ((name, target_of te) :: G) items) as [tis|er|p]; cbn [bind]; [|exact IH|exact IH].
      destruct IH as (sc3 & -> & Hsame & HF). exists sc3. split; [reflexivity|]. split.
      * intros id Hid. unfold item_ids in Hid. cbn [flat_map snd] in Hid. fold (item_ids items) in Hid.
        assert (~ In id (ids e) /\ ~ In id (item_ids items)) as [H1 H2] by (split; intros H; apply Hid; apply in_or_app; auto).
        destruct Hf as [_ F]. destruct (F id H1), (Hsame id H2). unfold sc2 in *. cbn in *. split; congruence.
      * constructor; [|exact HF]. split; [reflexivity|]. cbn.
        apply (encodes_agree te sc1 sc3 e); [|exact Henc]. intros id Hid.
        destruct (Hsame id (Hdisj id Hid)) as [S1 S2]. unfold sc2 in *. cbn in *. split; assumption.
    + destruct H as [-> _]. reflexivity.
Qed.
End Refine.

(** ** Evaluation *)
Section EvalOk.
Context (O : oracles) (env : environment) (sc : scope).

Lemma mapM_all2 {A B C} (R : B -> A -> Prop) (f : A -> res C) (g : B -> res C) l l' :
  (forall b a, In b l' -> In a l -> R b a -> f a = g b) -> all2 R l' l -> mapM f l = mapM g l'.
Proof.
  revert l. induction l' as [|b l' IH]; intros [|a l] H Hall; cbn in *; try contradiction; [reflexivity|].
  destruct Hall as [Hab Hall]. rewrite (H b a) by auto. destruct (g b); [|reflexivity|reflexivity]. cbn [bind].
  rewrite (IH l); [reflexivity| |exact Hall]. intros b' a' Hb Ha. apply H; auto.
Qed.

Lemma depth_pos e : 1 <= expr_depth e.
Proof. destruct e; cbn; lia. Qed.

Lemma depth_arg id name args raw a : In a args -> expr_depth a < expr_depth (ECall id name args raw).
Proof.
  intros H. cbn. apply Nat.lt_succ_r. induction args as [|b args IH]; [contradiction|]. cbn.
  destruct H as [<-|H]; [lia|]. specialize (IH H). lia.
Qed.

Lemma eval_encodes te : forall e fuel ctx,
  encodes sc te e -> expr_depth e <= fuel -> eval_expr O env sc fuel ctx e = run O (e_seed env) ctx te.
Proof.
  induction te as [v t|f tes t IH] using texpr_ind'; intros e fuel ctx He Hfuel;
    (destruct fuel as [|fuel]; [pose proof (depth_pos e); lia|]);
    destruct e as [id v'|id name args raw]; cbn [encodes] in He; try contradiction.
  - destruct He as (<- & c & Hc). cbn [eval_expr run]. unfold eval_value. rewrite Hc. cbn [vm_target].
    unfold coerced. destruct (try_cast O _ t); reflexivity.
  - destruct He as (as' & c & Hc & Has & Hall). cbn [eval_expr run]. rewrite Hc. cbn [cm_args cm_func cm_target].
    rewrite (mapM_all2 (encodes sc) _ (run O (e_seed env) ctx) as' tes); [reflexivity| |exact Hall].
    intros te a Hte Ha Hx. rewrite Forall_forall in IH. apply IH; [exact Hte|exact Hx|].
    destruct (given_cases f args raw as' Has) as [->|(rid & ts & -> & ->)].
    + pose proof (depth_arg id name args raw a Ha). lia.
    + destruct Ha as [<-|[]]. cbn in *.
      assert (1 <= fold_right (fun a n => Nat.max (expr_depth a) n) 1 args) by (clear; induction args; cbn; lia).
      lia.
Qed.

Lemma eval_items_ok items : forall ctx tis,
  Forall2 (fun it ti => fst it = fst ti /\ encodes sc (snd ti) (snd it)) items tis ->
  eval_items O env sc ctx items = run_items O (e_seed env) ctx tis.
Proof.
  induction items as [|[name e] items IH]; intros ctx tis H; inversion H as [|? [name' te] ? ? [H1 H2] H3]; subst; [reflexivity|].
  cbn in H1, H2. subst name'. cbn [eval_items run_items].
  rewrite (eval_encodes te e (S (expr_depth e)) ctx H2) by lia.
  destruct (run O (e_seed env) ctx te); [|reflexivity|reflexivity]. cbn [bind]. rewrite (IH _ _ H3). reflexivity.
Qed.
End EvalOk.

Theorem make_substitutions_spec O env spec :
  NoDup (item_ids (spec_items spec)) ->
  make_substitutions O env spec = bindings O env (spec_items spec).
Proof.
  intros Hnd. unfold make_substitutions, bindings.
  pose proof (resolve_items_ok env (spec_items spec) [] empty_scope (Forall2_nil _) Hnd
    (fun a (Ha : In a []) => match Ha with end) (fun id _ => eq_refl)) as H.
  destruct (elab_items env [] (spec_items spec)) as [tis|er|p].
  - destruct H as (sc' & -> & _ & HF). cbn [bind]. apply eval_items_ok. exact HF.
  - rewrite H. reflexivity.
  - contradiction.
Qed.
