(** Proofs for C78: the bound for a whole use, and that names really double. *)
From Coq Require Import String.
From Verif Require Import Base BaseFacts Token Types Values Ast Env Eval Item Interpreter Parse Macro Deprecation
  SpecElab SpecSubst SpecItem SpecDeprecation SpecMacro SpecCalls SpecFunctions SpecOutcome SpecKeywords SpecGrowth
  ElabProofs ElabFacts MeaningProofs KeywordsProofs FunctionProofs GrowthProofs.
Open Scope list_scope.

(** ** Bounds *)
Lemma values_grow c O seed id spec bs n x v : modest c O -> NoDup (item_ids (spec_items spec)) ->
  make_substitutions O (new_initialized O seed id) spec = Ok bs -> nth_error bs n = Some (x, v) ->
  (bulk (to_tokens v) <= growth (30 * c ^ 4) (firstn (S n) (spec_items spec)))%N.
Proof. intros HO Hn H. rewrite make_substitutions_spec in H by exact Hn. eapply bindings_grow; eassumption. Qed.

Lemma growth_pos k items : (1 <= k)%N -> (1 <= growth k items)%N.
Proof.
  intros Hk. unfold growth, product. induction items as [|[a e] items IH]; [cbn; lia|]. cbn [map fold_right snd].
  assert (1 <= extent k e)%N by (destruct e; cbn [extent]; nia). nia.
Qed.
Lemma growth_app k a b : growth k (a ++ b) = (growth k a * growth k b)%N.
Proof.
  unfold growth, product. induction a as [|x a IH]; [cbn [app map fold_right]; lia|]. cbn [app map fold_right]. rewrite IH. ring.
Qed.
Lemma growth_first k n items : (1 <= k)%N -> (growth k (firstn n items) <= growth k items)%N.
Proof.
  intros Hk. rewrite <- (firstn_skipn n items) at 2. rewrite growth_app. pose proof (growth_pos k (skipn n items) Hk).
  nia.
Qed.
Lemma assoc_nth {A} x (l : list (str * A)) v : assoc_str x l = Some v -> exists n, nth_error l n = Some (x, v).
Proof.
  induction l as [|[y w] l IH]; cbn [assoc_str]; [discriminate|]. destruct (str_eqb x y) eqn:E.
  - intros H; injection H as ->. apply str_eqb_eq in E as ->. exists 0. reflexivity.
  - intros H. destruct (IH H) as [n Hn]. exists (S n). exact Hn.
Qed.

Lemma piece_bulk q f p : (1 <= q)%N -> (forall ts, bulk (f ts) <= q * bulk ts)%N ->
  (bulk (piece_code f p) <= q * bulk (piece_code (fun ts => ts) p))%N.
Proof.
  intros Hq Hf. induction p as [x|ts|d l IH] using piece_ind'; cbn [piece_code].
  - rewrite bulk_cons. nia.
  - apply Hf.
  - rewrite !bulk_cons. cbn [letters]. change (sum (map letters ?l)) with (bulk l). change (bulk []) with 0%N.
    assert (H : (bulk (flat_map (piece_code f) l) <= q * bulk (flat_map (piece_code (fun ts => ts)) l))%N).
    { induction IH as [|p l Hp _ IHl]; [cbn; lia|]. cbn [flat_map]. rewrite !bulk_app. nia. }
    nia.
Qed.
Lemma pieces_bulk q f l : (1 <= q)%N -> (forall ts, bulk (f ts) <= q * bulk ts)%N ->
  (bulk (pieces_code f l) <= q * bulk (pieces_code (fun ts => ts) l))%N.
Proof.
  intros Hq Hf. unfold pieces_code. induction l as [|p l IH]; [cbn; lia|]. cbn [flat_map]. rewrite !bulk_app.
  pose proof (piece_bulk q f p Hq Hf). nia.
Qed.

Lemma round_grows c O R seed id block items ts : modest c O -> kept_outcome O R (new_initialized O seed id) block items = Ok ts ->
  (bulk ts <= c ^ 2 * growth (30 * c ^ 4) items * bulk (block_tokens (map drop_where_stmt block)))%N.
Proof.
  intros HO H. unfold kept_outcome in H. destruct (bindings O _ items) as [bs| |] eqn:E; cbn [bind] in H; try discriminate H.
  unfold ends_with in H. destruct (first_part_failure _ _ _ _) as [e|]; [destruct e; discriminate H|]. injection H as <-.
  assert (Hk : (1 <= 30 * c ^ 4)%N). { pose proof (modest_factor c O HO) as Hc. assert (c ^ 4 <> 0)%N by (apply N.pow_nonzero; lia). lia. }
  assert (Hg : (1 <= growth (30 * c ^ 4) items)%N) by (apply growth_pos, Hk).
  rewrite N.pow_2_r, <- block_printed. apply pieces_bulk.
  - pose proof (modest_factor c O HO). nia.
  - apply (substituted_bulk c O HO); [exact Hg|].
    intros x v Hv. apply assoc_nth in Hv as [n Hn]. eapply N.le_trans; [exact (bindings_grow c O HO seed id _ _ _ _ _ E Hn)|]. apply growth_first, Hk.
Qed.

(** ** The attributes of the warnings *)
Lemma attributes_rev prefix l : attributes_bulk prefix (rev l) = attributes_bulk prefix l.
Proof.
  unfold attributes_bulk. induction l as [|w l IH]; [reflexivity|]. cbn [rev]. rewrite map_app, sum_app, IH. cbn [map]. rewrite !sum_cons. cbn [sum fold_right]. lia.
Qed.
Lemma pop_bulk prefix ws w ws' : pop ws = Some (w, ws') ->
  attributes_bulk prefix ws = (attributes_bulk prefix ws' + bulk (attr_tokens (to_attribute (with_prefix prefix w))))%N.
Proof.
  unfold pop. destruct (rev ws) as [|x r] eqn:E; [discriminate|]. intros H; injection H as <- <-.
  rewrite <- (attributes_rev prefix ws), E, attributes_rev. unfold attributes_bulk. cbn [map]. rewrite sum_cons. lia.
Qed.
Lemma process_bulk prefix ws a b : let r := process_deprecations prefix ws a b in
  (bulk (attrs_tokens (snd r)) + attributes_bulk prefix (fst r) = bulk (attrs_tokens a) + attributes_bulk prefix ws)%N.
Proof.
  cbv zeta. unfold process_deprecations. destruct (pop ws) as [[w ws']|] eqn:E; [|reflexivity].
  destruct (existsb _ a || b)%bool; [reflexivity|]. cbn [fst snd]. rewrite (pop_bulk prefix ws w ws' E).
  unfold attrs_tokens. rewrite flat_map_app, bulk_app. cbn [flat_map]. rewrite app_nil_r. lia.
Qed.
Lemma each_bulk prefix l : Forall (fun t => forall ws, let r := visit_tree prefix ws t in
    (bulk (tree_tokens (snd r)) + attributes_bulk prefix (fst r) = bulk (tree_tokens t) + attributes_bulk prefix ws)%N) l ->
  forall ws, let r := visit_each (visit_tree prefix) ws l in
    (bulk (flat_map tree_tokens (snd r)) + attributes_bulk prefix (fst r) = bulk (flat_map tree_tokens l) + attributes_bulk prefix ws)%N.
Proof.
  cbv zeta. induction 1 as [|u l Hu _ IH]; intros ws; [reflexivity|]. cbn [visit_each flat_map]. specialize (Hu ws).
  destruct (visit_tree prefix ws u) as [ws1 u']. specialize (IH ws1). destruct (visit_each _ ws1 l) as [ws2 l'].
  cbn [fst snd flat_map] in *. rewrite !bulk_app. lia.
Qed.
Lemma visited_bulk prefix t : forall ws, let r := visit_tree prefix ws t in
  (bulk (tree_tokens (snd r)) + attributes_bulk prefix (fst r) = bulk (tree_tokens t) + attributes_bulk prefix ws)%N.
Proof.
  cbv zeta. induction t as [t|d l IH|a b l IH] using tree_ind'; intros ws; cbn [visit_tree].
  - reflexivity.
  - pose proof (each_bulk prefix l IH ws) as H. cbv zeta in H. destruct (visit_each _ ws l) as [ws' l']. cbn [fst snd tree_tokens] in *.
    rewrite !bulk_cons. cbn [letters]. change (sum (map letters ?l)) with (bulk l). lia.
  - pose proof (process_bulk prefix ws a b) as Ha. cbv zeta in Ha. destruct (process_deprecations prefix ws a b) as [ws1 a'].
    pose proof (each_bulk prefix l IH ws1) as H. cbv zeta in H. destruct (visit_each _ ws1 l) as [ws2 l']. cbn [fst snd tree_tokens] in *.
    rewrite !bulk_app. lia.
Qed.
Lemma warned_bulk Y prefix ws ts : covers Y -> (bulk (with_warnings Y prefix ws ts) <= bulk ts + attributes_bulk prefix ws)%N.
Proof.
  intros Hc. unfold with_warnings, emit. cbn [warnings s_prefix].
  assert (E : bulk ts = bulk (forest_tokens (as_forest Y ts))) by (rewrite Hc; reflexivity). rewrite E.
  assert (H : forall v, (bulk (forest_tokens (snd (visit_each (visit_tree prefix) v (as_forest Y ts)))) <= bulk (forest_tokens (as_forest Y ts)) + attributes_bulk prefix v)%N).
  { intros v. pose proof (each_bulk prefix (as_forest Y ts) ltac:(apply Forall_forall; intros; apply visited_bulk) v) as H. cbv zeta in H.
    unfold forest_tokens. lia. }
  destruct ws as [|w ws]; [lia|]. rewrite <- (attributes_rev prefix (w :: ws)). apply H.
Qed.

Lemma use_grows c O P Y uses i u ast ts : modest c O -> faithful O (reparse Y) -> covers Y -> nth_error uses i = Some u ->
  p_ast (inv_parsed (invocation_for O P u)) = Ok (Some ast) ->
  nth_error (expand_uses O P Y uses) i = Some (Code ts) ->
  exists rs, all_some (rounds ast) = Some rs /\
    (bulk ts <= sum (map (fun items => c ^ 2 * growth (30 * c ^ 4) items * bulk (block_tokens (map drop_where_stmt (ast_block ast))) +
       attributes_bulk (prefix_of (u_source (hd u uses))) (raised (invocation_for O P u))) rs))%N.
Proof.
  intros HO HF HC Hu Ha Ho. rewrite (use_kept O Y P uses i u ast HF Hu Ha) in Ho. injection Ho as Hm.
  destruct (kept_meaning _ _ _ _ _) as [l| |] eqn:Ek; try discriminate Hm. injection Hm as <-. unfold kept_meaning in Ek.
  destruct (all_some (rounds ast)) as [rs|]; [|discriminate]. exists rs. split; [reflexivity|].
  destruct (mapM _ rs) as [codes| |] eqn:E; cbn [bind] in Ek; try discriminate Ek. injection Ek as <-.
  apply mapM_Forall2 in E. clear - HO HC E. induction E as [|items code rs codes H _ IH]; [cbn; lia|].
  cbn [List.concat map]. rewrite bulk_app, sum_cons. apply (round_grows c O _ _ _ _ _ _ HO) in H.
  pose proof (warned_bulk Y (prefix_of (u_source (hd u uses))) (raised (invocation_for O P u)) code HC). lia.
Qed.

(** ** Doubling *)
Lemma long_times n x : long (times n x) = (N.of_nat n * long x)%N.
Proof.
  unfold times. induction n as [|n IH]; [reflexivity|]. cbn [repeat List.concat]. rewrite long_app, IH. rewrite Nat2N.inj_succ. nia.
Qed.
Lemma times_app a b x : times a x ++ times b x = times (a + b) x.
Proof. unfold times. rewrite repeat_app, concat_app. reflexivity. Qed.

Definition power_values (name : nat -> str) (x : str) (n : nat) : list (str * value) :=
  map (fun k => (name k, VIdent (times (2 ^ k) x))) (seq 0 (S n)).
Lemma power_values_step name x n : power_values name x (S n) = power_values name x n ++ [(name (S n), VIdent (times (2 ^ S n) x))].
Proof. unfold power_values. rewrite (seq_S (S n)), map_app. reflexivity. Qed.

Lemma NoDup_app_intro {A} (a b : list A) : NoDup a -> NoDup b -> (forall x, In x a -> ~ In x b) -> NoDup (a ++ b).
Proof.
  intros Ha Hb. induction Ha as [|y a Hy _ IH]; intros Hd; [exact Hb|]. cbn [app]. constructor.
  - intros H. apply in_app_or in H as [H|H]; [contradiction|]. exact (Hd y (or_introl eq_refl) H).
  - apply IH. intros z Hz. apply Hd. right. exact Hz.
Qed.

Section Doubling.
Context (O : oracles) (seed id : N) (name : nat -> str) (x : str).
Hypothesis Hname : forall a b, name a = name b -> a = b.
Hypothesis Hx : forall k, ident_ok O (times (S k) x) = true.

Lemma item_ids_app a b : item_ids (a ++ b) = item_ids a ++ item_ids b.
Proof. unfold item_ids. apply flat_map_app. Qed.
Lemma twice_ids n : item_ids [twice name n] = let k := N.of_nat (4 * n) in [k + 1; k + 2; k + 3; k + 4]%N.
Proof. reflexivity. Qed.
Lemma doubling_ids n : NoDup (item_ids (doubling name x n)) /\ forall k, In k (item_ids (doubling name x n)) -> (k <= N.of_nat (4 * n))%N.
Proof.
  induction n as [|n [IH1 IH2]]; cbn [doubling].
  - split; [repeat constructor; intros []|]. intros k [<-|[]]. lia.
  - rewrite item_ids_app, twice_ids. cbv zeta. set (k0 := N.of_nat (4 * n)) in *. split.
    + apply NoDup_app_intro; [exact IH1| |].
      * repeat constructor; cbn [In]; lia.
      * intros k Hk Hk'. apply IH2 in Hk. cbn [In] in Hk'. lia.
    + intros k Hk. apply in_app_or in Hk as [Hk|Hk]; [apply IH2 in Hk|cbn [In] in Hk]; lia.
Qed.
Lemma doubling_names n : map fst (doubling name x n) = map name (seq 0 (S n)).
Proof.
  induction n as [|n IH]; [reflexivity|]. cbn [doubling]. rewrite map_app, (seq_S (S n)), map_app. f_equal. exact IH.
Qed.
Lemma power_found n k : (k <= n)%nat -> assoc_str (name k) (power_values name x n) = Some (VIdent (times (2 ^ k) x)).
Proof.
  intros Hk. unfold power_values. assert (H : forall s m, (s <= k < s + m)%nat ->
    assoc_str (name k) (map (fun k => (name k, VIdent (times (2 ^ k) x))) (seq s m)) = Some (VIdent (times (2 ^ k) x))).
  { intros s m. revert s. induction m as [|m IHm]; intros s Hs; [lia|]. cbn [seq map assoc_str].
    destruct (str_eqb (name k) (name s)) eqn:E.
    - apply str_eqb_eq, Hname in E as ->. reflexivity.
    - apply IHm. destruct (Nat.eq_dec k s) as [->|]; [|lia]. rewrite str_eqb_refl in E. discriminate. }
  apply H. lia.
Qed.

Lemma doubling_values n : make_substitutions O (new_initialized O seed id) {| spec_items := doubling name x n; is_comma_used := Some true |} =
  Ok (power_values name x n).
Proof.
  induction n as [|n IH].
  - generalize (new_initialized O seed id). intros env. unfold power_values. cbn [seq map Nat.pow]. unfold times. cbn [repeat List.concat].
    rewrite app_nil_r. reflexivity.
  - cbn [doubling]. unfold twice. cbv zeta. set (k := N.of_nat (4 * n)).
    change [EValue (k + 2) (VIdent (name n)); EValue (k + 3) (VIdent (name n))] with (plain [((k + 2)%N, VIdent (name n)); ((k + 3)%N, VIdent (name n))]).
    rewrite (function_call O seed id (doubling name x n) (name (S n)) _ _ _ _ (power_values name x n) (Some true) (Some true)).
    + cbn [map snd lookup_value]. rewrite (power_found n n) by lia. cbn [option_map].
      assert (E : forall raw a, ident_ok O (a ++ a) = true -> call_meaning O seed (txt "concat") raw [VIdent a; VIdent a] = Ok (VIdent (a ++ a))).
      { intros raw a Ha. unfold call_meaning. change (assoc_str (txt "concat") (functions O seed)) with (Some (fun (_ : option (list tt)) vs => concat_meaning O vs)).
        unfold concat_meaning. cbn [idents_of fold_right List.concat]. rewrite app_nil_r. unfold identifier. rewrite Ha. reflexivity. }
      assert (Ht : times (2 ^ n) x ++ times (2 ^ n) x = times (2 ^ S n) x).
      { rewrite times_app. cbn [Nat.pow]. f_equal. lia. }
      rewrite E; rewrite Ht.
      * cbn [bind]. rewrite power_values_step. reflexivity.
      * assert (Hp : 2 ^ S n <> 0) by (apply Nat.pow_nonzero; lia). destruct (2 ^ S n) as [|m]; [lia|]. apply Hx.
    + apply (doubling_ids (S n)).
    + rewrite doubling_names. intros H. apply in_map_iff in H as (j & Hj & Hin). apply Hname in Hj. apply in_seq in Hin. lia.
    + exact IH.
Qed.
Lemma doubling_last n : exists bs y, make_substitutions O (new_initialized O seed id) {| spec_items := doubling name x n; is_comma_used := Some true |} = Ok bs /\
  nth_error bs n = Some (name n, VIdent y) /\ List.length y = 2 ^ n * List.length x.
Proof.
  exists (power_values name x n), (times (2 ^ n) x). split; [apply doubling_values|]. split.
  - unfold power_values. apply map_nth_error with (f := fun k => (name k, VIdent (times (2 ^ k) x))) (n := n) (d := n).
    rewrite nth_error_nth' with (d := 0) by (rewrite seq_length; lia). rewrite seq_nth by lia. reflexivity.
  - pose proof (long_times (2 ^ n) x) as H. unfold long in H. rewrite <- Nat2N.inj_mul in H. apply Nat2N.inj in H. exact H.
Qed.
End Doubling.
