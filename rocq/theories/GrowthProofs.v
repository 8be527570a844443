(** Proofs for C78: values and code are bounded by the product of the sizes of the definitions. *)
From Coq Require Import String.
From Verif Require Import Base BaseFacts Token Types Values Ast Env Normalize FormatString Item Interpreter
  SpecElab SpecSubst SpecItem SpecMacro SpecGrowth ElabFacts BuiltinFacts.
Open Scope list_scope.

Lemma sum_app a b : sum (a ++ b) = (sum a + sum b)%N.
Proof. unfold sum. induction a as [|x a IH]; [reflexivity|]. cbn [app fold_right]. rewrite IH. lia. Qed.
Lemma long_app {A} (a b : list A) : long (a ++ b) = (long a + long b)%N.
Proof. unfold long. rewrite app_length. lia. Qed.
Lemma long_cons {A} (x : A) l : long (x :: l) = (1 + long l)%N.
Proof. unfold long. cbn [List.length]. lia. Qed.
Lemma long_nil {A} : long (@nil A) = 0%N.
Proof. reflexivity. Qed.
Lemma bulk_app a b : bulk (a ++ b) = (bulk a + bulk b)%N.
Proof. unfold bulk. rewrite map_app. apply sum_app. Qed.
Lemma bulk_cons t ts : bulk (t :: ts) = (letters t + bulk ts)%N.
Proof. reflexivity. Qed.
Lemma bulk_concat l : bulk (List.concat l) = sum (map bulk l).
Proof. induction l as [|a l IH]; [reflexivity|]. cbn [List.concat map]. rewrite bulk_app, IH. reflexivity. Qed.
Lemma sum_cons a l : sum (a :: l) = (a + sum l)%N.
Proof. reflexivity. Qed.
Lemma value_bulk_ident x : value_bulk (VIdent x) = (1 + long x)%N.
Proof. unfold value_bulk. cbn [to_tokens]. rewrite bulk_cons. cbn [letters]. unfold bulk, sum. cbn [map fold_right]. lia. Qed.
Lemma value_bulk_str x p : value_bulk (VLitStr x p) = (1 + long x + long p)%N.
Proof. unfold value_bulk. cbn [to_tokens]. rewrite bulk_cons. cbn [letters]. unfold bulk, sum. cbn [map fold_right]. lia. Qed.
Lemma value_bulk_int x p : value_bulk (VLitInt x p) = (1 + long x + long p)%N.
Proof. unfold value_bulk. cbn [to_tokens]. rewrite bulk_cons. cbn [letters]. unfold bulk, sum. cbn [map fold_right]. lia. Qed.

(** ** Texts *)
Lemma decimal_short fuel : forall n acc k, (n < 10 ^ N.of_nat k)%N -> (1 <= k)%nat ->
  (long (decimal_fuel fuel n acc) <= N.of_nat k + long acc)%N.
Proof.
  induction fuel as [|fuel IH]; intros n acc k Hn Hk; cbn [decimal_fuel]; [lia|].
  destruct (N.eqb_spec (n / 10) 0) as [E|E]; [rewrite long_cons; lia|].
  destruct k as [|[|k]]; [lia| |].
  - exfalso. apply E. apply N.div_small. exact Hn.
  - eapply N.le_trans; [apply (IH _ _ (S k)); [|lia]|rewrite long_cons; lia].
    apply N.div_lt_upper_bound; [lia|]. rewrite <- N.pow_succ_r'. rewrite <- Nat2N.inj_succ. exact Hn.
Qed.
Lemma hash_short n : (n < 2 ^ 64)%N -> (long (decimal n) <= 20)%N.
Proof.
  intros H. unfold decimal. eapply N.le_trans; [apply (decimal_short _ _ _ 20)|cbn; lia].
  - eapply N.lt_le_trans; [exact H|]. apply N.leb_le. vm_compute. reflexivity.
  - repeat constructor.
Qed.
Lemma normalize_step_short a n st c b : (long (n_result (normalize_step a n st c b)) <=
  long (n_result st) + 1 + match n_result st with [] => 1 | _ => 0 end)%N.
Proof.
  unfold normalize_step. destruct (n_result st) as [|r0 r] eqn:E; cbn [negb orb andb];
    repeat match goal with |- context [if ?b then _ else _] => destruct b end; cbn [n_result]; rewrite ?E, ?long_app, ?long_cons, ?long_nil; try lia.
Qed.
Lemma normalize_loop_short a n x : forall st, (long (n_result (normalize_loop a n st x)) <= long (n_result st) + long x + match n_result st with [] => 1 | _ => 0 end)%N.
Proof.
  induction x as [|c x IH]; intros st; cbn [normalize_loop]; [lia|].
  eapply N.le_trans; [apply IH|]. rewrite long_cons.
  pose proof (normalize_step_short a n st c (match x with [] => true | _ => false end)) as H.
  destruct (n_result (normalize_step a n st c _)) as [|r0 r] eqn:E.
  - rewrite long_nil. destruct (n_result st) eqn:E0; [lia|]. exfalso. unfold normalize_step in E. rewrite E0 in E. cbn [negb orb andb] in E.
    repeat match type of E with context [if ?b then _ else _] => destruct b end; cbn [n_result] in E; try discriminate E; rewrite E0 in E; discriminate E.
  - lia.
Qed.
Lemma removelast_short {A} (l : list A) : (long (removelast l) <= long l)%N.
Proof.
  induction l as [|x l IH]; [cbn; lia|]. destruct l; [rewrite long_cons; cbn; lia|].
  change (removelast (x :: a :: l)) with (x :: removelast (a :: l)). rewrite !long_cons in *. lia.
Qed.
Lemma normalize_short a n x : (long (normalize a n x) <= long x + 1)%N.
Proof.
  unfold normalize. pose proof (normalize_loop_short a n x {| n_result := []; n_inserted := false |}) as H. cbn [n_result] in H. rewrite long_nil in H.
  set (st := normalize_loop a n _ x) in *.
  assert (Hr : (long (if n_inserted st then removelast (n_result st) else n_result st) <= long x + 1)%N)
    by (destruct (n_inserted st); [pose proof (removelast_short (n_result st))|]; lia).
  destruct (if n_inserted st then _ else _); [rewrite long_cons, long_nil; lia|exact Hr].
Qed.

Section Growth.
Context (c : N) (O : oracles) (HO : modest c O).
Let Hc : (1 <= c)%N := modest_factor c O HO.

Lemma le_cc b : (b <= c * c * b)%N.
Proof. pose proof Hc as H. clearbody Hc. assert (1 <= c * c)%N by nia. nia. Qed.
Lemma le_cc_of a b : (a <= b)%N -> (a <= c * c * b)%N.
Proof. intros H. eapply N.le_trans; [exact H|apply le_cc]. Qed.

Lemma from_str_bulk x w : from_lit_str_as_ident O x = Ok w -> (value_bulk w <= 1 + c * long x)%N.
Proof.
  unfold from_lit_str_as_ident, or_type_error. destruct (parse_str_ident O x) as [y|] eqn:E; [|discriminate].
  intros H; injection H as <-. rewrite value_bulk_ident. apply (modest_str_ident c O HO) in E. lia.
Qed.
Lemma tokens_ident_bulk ts w :
  match parse_lit_str O ts with
  | Some (x, _) => from_lit_str_as_ident O x
  | None => or_type_error (parse_ident O ts) VIdent
  end = Ok w -> (value_bulk w <= c * c * bulk ts)%N.
Proof.
  destruct (parse_lit_str O ts) as [[x p]|] eqn:E.
  - intros H. apply from_str_bulk in H. apply (modest_lit_str c O HO) in E.
    assert (c * (1 + long x) <= c * (c * bulk ts))%N by (apply N.mul_le_mono_l; lia). nia.
  - unfold or_type_error. destruct (parse_ident O ts) as [x|] eqn:E1; [|discriminate]. intros H; injection H as <-.
    apply (modest_ident c O HO) in E1. rewrite value_bulk_ident. nia.
Qed.
Lemma tokens_str_bulk ts w :
  match parse_ident O ts with
  | Some x => Ok (VLitStr x [])
  | None => or_type_error (parse_lit_str O ts) (fun l => VLitStr (fst l) (snd l))
  end = Ok w -> (value_bulk w <= c * c * bulk ts)%N.
Proof.
  destruct (parse_ident O ts) as [x|] eqn:E.
  - intros H; injection H as <-. apply (modest_ident c O HO) in E. rewrite value_bulk_str, long_nil. nia.
  - unfold or_type_error. destruct (parse_lit_str O ts) as [[x p]|] eqn:E1; [|discriminate]. intros H; injection H as <-.
    apply (modest_lit_str c O HO) in E1. cbn [fst snd]. rewrite value_bulk_str. nia.
Qed.
Lemma node_bulk (p : list tt -> option (list tt)) (f : list tt -> value) ts w :
  (forall ts r, p ts = Some r -> (bulk r <= c * bulk ts)%N) -> (forall r, value_bulk (f r) = bulk r) ->
  or_type_error (p ts) f = Ok w -> (value_bulk w <= c * c * bulk ts)%N.
Proof.
  intros Hp Hf. unfold or_type_error. destruct (p ts) as [r|] eqn:E; [|discriminate]. intros H; injection H as <-.
  rewrite Hf. apply Hp in E. nia.
Qed.
Lemma int_bulk ts w : or_type_error (parse_lit_int O ts) (fun l => VLitInt (fst l) (snd l)) = Ok w -> (value_bulk w <= c * c * bulk ts)%N.
Proof.
  unfold or_type_error. destruct (parse_lit_int O ts) as [[d r]|] eqn:E; [|discriminate]. intros H; injection H as <-.
  apply (modest_lit_int c O HO) in E. cbn [fst snd]. rewrite value_bulk_int. nia.
Qed.

Lemma cast_bulk v t w : try_cast O v t = Ok w -> (value_bulk w <= c * c * value_bulk v)%N.
Proof.
  unfold try_cast. destruct (ty_eqb (type_of v) t); [intros H; injection H as <-; apply le_cc|].
  assert (Hp := modest_path c O HO). assert (Ht := modest_type c O HO). assert (He := modest_expr c O HO).
  intros H; destruct v as [x|ts|ts|ts|x p|d r|ts|ts], t; cbv zeta in H; try discriminate H; cbn [to_tokens] in H;
    try match goal with |- (_ <= c * c * value_bulk ?v)%N => let s := eval cbn [to_tokens] in (to_tokens v) in change (value_bulk v) with (bulk s) end;
    first [ apply tokens_ident_bulk; exact H
          | apply tokens_str_bulk; exact H
          | apply int_bulk; exact H
          | eapply node_bulk; [exact Hp| |exact H]; intros ?; reflexivity
          | eapply node_bulk; [exact Ht| |exact H]; intros ?; reflexivity
          | eapply node_bulk; [exact He| |exact H]; intros ?; reflexivity
          | injection H as <-; rewrite value_bulk_str, long_nil; change (bulk [TIdent x]) with (value_bulk (VIdent x)); rewrite value_bulk_ident; apply le_cc_of; lia
          | injection H as <-; apply le_cc
          | apply from_str_bulk in H; change (bulk [TLit (LStr x p)]) with (value_bulk (VLitStr x p)); rewrite value_bulk_str;
            eapply N.le_trans; [exact H|]; clear - Hc; pose proof Hc as Hc'; clearbody Hc; generalize (long x), (long p); intros a b; assert (1 <= c * c)%N by nia; assert (c <= c * c)%N by nia; nia ].
Qed.

(** ** The functions *)
Definition total_bulk (vs : list value) : N := sum (map value_bulk vs).
Definition grown (vs : list value) : N := (30 * (c * c) * (1 + total_bulk vs))%N.
Lemma cc1 : (1 <= c * c)%N.
Proof. pose proof Hc as H. clearbody Hc. nia. Qed.
Lemma cc2 : (c <= c * c)%N.
Proof. pose proof Hc as H. clearbody Hc. nia. Qed.
Lemma grown_c vs a n : (a <= c * n + 29)%N -> (n <= total_bulk vs)%N -> (a <= grown vs)%N.
Proof.
  intros Ha Hn. unfold grown. pose proof cc1. pose proof cc2. pose proof Hc as H1. clearbody Hc.
  generalize dependent (total_bulk vs). intros T HT. generalize dependent (c * c)%N. intros q Hq1 Hq2.
  assert (c * n <= q * T)%N by (apply N.mul_le_mono; assumption). nia.
Qed.
Lemma grown_cc vs a : (a <= c * c * total_bulk vs + 29)%N -> (a <= grown vs)%N.
Proof.
  intros Ha. unfold grown. pose proof cc1 as H. clear - Ha H. revert Ha H. generalize (total_bulk vs), (c * c)%N. intros T q. nia.
Qed.
Lemma new_ident_bulk x w : new_ident O x = Ok w -> value_bulk w = (1 + long x)%N.
Proof. unfold new_ident. destruct (ident_ok O x); [|discriminate]. intros H; injection H as <-. apply value_bulk_ident. Qed.
Lemma total_one v : total_bulk [v] = value_bulk v.
Proof. unfold total_bulk. cbn [map]. rewrite sum_cons. unfold sum. cbn [fold_right]. lia. Qed.
Lemma print_bulk ts : (long (to_string O ts) <= c * bulk ts)%N.
Proof. apply (modest_print c O HO). Qed.

Definition row_grows (r : row) : Prop :=
  Forall (fun x => forall seed vs v, snd x seed vs = Ok v -> (value_bulk v <= grown vs)%N) (snd r).
Lemma str_funcs_grow name g : (forall x, (long (g x) <= c * long x)%N) -> row_grows (str_funcs O name g).
Proof.
  intros Hg. constructor; [|constructor; [|constructor]]; intros seed vs v H; cbn [fst snd] in H.
  - unfold str_func_lit in H. destruct vs as [|[x|ts|ts|ts|x p|d r|ts|ts] [|]]; try discriminate H. injection H as <-.
    unfold new_lit_str. rewrite value_bulk_str, long_nil. apply (grown_c _ _ (long x)); [specialize (Hg x); lia|].
    rewrite total_one, value_bulk_str. lia.
  - unfold str_func_ident in H. destruct vs as [|[x|ts|ts|ts|x p|d r|ts|ts] [|]]; try discriminate H. apply new_ident_bulk in H.
    rewrite H. apply (grown_c _ _ (long x)); [specialize (Hg x); lia|]. rewrite total_one, value_bulk_ident. lia.
Qed.
Lemma collect_sum {A} (g : value -> option A) (f : A -> N) vs : forall l,
  (forall v a, g v = Some a -> (f a <= value_bulk v)%N) -> collect_args g vs = Some l -> (sum (map f l) <= total_bulk vs)%N.
Proof.
  induction vs as [|v vs IH]; intros l Hg H; cbn [collect_args] in H; [injection H as <-; cbn; lia|].
  destruct (g v) as [a|] eqn:E; [|discriminate]. destruct (collect_args g vs) as [l'|] eqn:E2; [|discriminate]. injection H as <-.
  unfold total_bulk in *. cbn [map]. rewrite !sum_cons. specialize (IH _ Hg eq_refl). specialize (Hg _ _ E). lia.
Qed.
Lemma long_concat (l : list str) : long (fn_concat l) = sum (map long l).
Proof. unfold fn_concat. induction l as [|x l IH]; [reflexivity|]. cbn [List.concat map]. rewrite long_app, sum_cons, IH. reflexivity. Qed.
Lemma normalized_grows vs x w n : new_ident O (fn_normalize O x) = Ok w -> (long x <= c * n)%N -> (n <= total_bulk vs)%N -> (value_bulk w <= grown vs)%N.
Proof.
  intros H Hx Hn. apply new_ident_bulk in H. rewrite H. unfold fn_normalize.
  pose proof (normalize_short (is_alphanumeric O) (is_numeric O) x) as Hs. apply (grown_c _ _ n); [lia|exact Hn].
Qed.
Lemma hashed_grows vs sd x w : new_ident O (txt "__" ++ fn_hash O sd x) = Ok w -> (value_bulk w <= grown vs)%N.
Proof.
  intros H. apply new_ident_bulk in H. rewrite H, long_app. unfold fn_hash.
  pose proof (hash_short _ (modest_hash c O HO sd x)) as Hs. change (long (txt "__")) with 2%N. apply (grown_c _ _ 0); [|apply N.le_0_l].
  clear - Hs. revert Hs. generalize (long (decimal (hash64 O sd x))). intros m. lia.
Qed.
Lemma own_c (x : str) : (long x <= c * long x)%N.
Proof. clearbody Hc. nia. Qed.
Lemma concat_parses vs (x : str) (l : list str) w : sum (map long l) = long x -> parse_str_ident O x = Some w ->
  (sum (map long l) <= c * total_bulk vs)%N -> (value_bulk (VIdent w) <= grown vs)%N.
Proof.
  intros Hx Hp Hl. apply (modest_str_ident c O HO) in Hp. rewrite value_bulk_ident. apply grown_cc. rewrite <- Hx in Hp.
  assert (c * sum (map long l) <= c * (c * total_bulk vs))%N by (apply N.mul_le_mono_l; exact Hl). lia.
Qed.

Lemma to_grows t seed vs w : impl_to O t seed vs = Ok w -> (value_bulk w <= grown vs)%N.
Proof.
  unfold impl_to. destruct vs as [|[x|ts|ts|ts|x p|d r|ts|ts] [|]]; try discriminate. intros H. apply cast_bulk in H.
  apply grown_cc. rewrite total_one. lia.
Qed.
Lemma kept_grows vs ts : vs = [VTokens ts] \/ vs = [VRaw ts] -> (value_bulk (VTokens ts) <= grown vs)%N.
Proof.
  intros H. apply grown_cc. assert (E : total_bulk vs = bulk ts) by (destruct H; subst vs; apply total_one). rewrite E.
  change (value_bulk (VTokens ts)) with (bulk ts). pose proof (le_cc (bulk ts)). lia.
Qed.
Lemma table_grows : Forall row_grows (table O).
Proof.
  unfold table.
  repeat (first [apply Forall_cons; [apply str_funcs_grow; first [exact (modest_upper c O HO)|exact (modest_lower c O HO)|exact (modest_snake c O HO)|exact (modest_camel c O HO)|exact (modest_pascal c O HO)]|]
                |apply Forall_cons|apply Forall_nil]);
    unfold row_grows; cbn [fst snd];
    repeat (first [apply Forall_nil|apply Forall_cons]); intros seed vs v H; cbn [fst snd] in *.
  all: cycle 11.
  - (* concat *)
    unfold impl_concat_idents in H. destruct (collect_args _ vs) as [l|] eqn:E; [|discriminate]. apply new_ident_bulk in H.
    rewrite H, long_concat. apply (grown_c _ _ (sum (map long l))).
    + pose proof (own_c (List.concat l)) as Ho. fold (fn_concat l) in Ho. rewrite long_concat in Ho. lia.
    + eapply collect_sum; [|exact E]. intros [] a Ha; try discriminate Ha. injection Ha as <-. rewrite value_bulk_ident. lia.
  - unfold impl_concat_ident_tokens in H. destruct vs as [|v0 vs]; [discriminate|].
    destruct (collect_args _ vs) as [l|] eqn:E; [|discriminate].
    destruct (parse_str_ident O _) as [x|] eqn:Ex; [|discriminate]. injection H as <-.
    eapply concat_parses; [symmetry; apply long_concat|exact Ex|].
    cbn [map]. rewrite sum_cons. unfold total_bulk. cbn [map]. rewrite sum_cons. rewrite N.mul_add_distr_l. apply N.add_le_mono; [apply print_bulk|].
    clear Ex. revert l E. induction vs as [|v vs IH]; intros l E; cbn [collect_args] in E; [injection E as <-; cbn; lia|].
    destruct v as [ | | | | | |ts| ]; try discriminate E. destruct (collect_args _ vs) as [l'|]; [|discriminate]. injection E as <-.
    cbn [map]. rewrite !sum_cons, N.mul_add_distr_l. apply N.add_le_mono; [apply print_bulk|apply IH; reflexivity].
  - unfold impl_concat_strs in H. destruct (collect_args _ vs) as [l|] eqn:E; [|discriminate]. injection H as <-.
    unfold new_lit_str. rewrite value_bulk_str, long_nil, long_concat. apply (grown_c _ _ (sum (map long l))).
    + pose proof (own_c (List.concat l)) as Ho. fold (fn_concat l) in Ho. rewrite long_concat in Ho. lia.
    + eapply collect_sum; [|exact E]. intros [] a Ha; try discriminate Ha. injection Ha as <-. rewrite value_bulk_str. lia.
  - unfold impl_concat_ints in H. destruct (collect_args _ vs) as [l|] eqn:E; [|discriminate].
    destruct (lit_int_new O _) as [[d r]|] eqn:El; [|discriminate]. injection H as <-.
    apply (modest_new_int c O HO) in El. rewrite long_concat in El. rewrite value_bulk_int. apply (grown_c _ _ (sum (map long l))); [lia|].
    eapply collect_sum; [|exact E]. intros [] a Ha; try discriminate Ha. injection Ha as <-. rewrite value_bulk_int. lia.
  - unfold impl_concat_tokens in H. destruct (collect_args _ vs) as [l|] eqn:E; [|discriminate]. injection H as <-.
    change (value_bulk (VTokens (List.concat l))) with (bulk (List.concat l)). rewrite bulk_concat.
    apply grown_cc. eapply N.le_trans; [eapply collect_sum; [|exact E]|pose proof (le_cc (total_bulk vs)); lia].
    intros [] a Ha; try discriminate Ha. injection Ha as <-. apply N.le_refl.
  - exact (to_grows _ _ _ _ H).
  - exact (to_grows _ _ _ _ H).
  - exact (to_grows _ _ _ _ H).
  - exact (to_grows _ _ _ _ H).
  - exact (to_grows _ _ _ _ H).
  - exact (to_grows _ _ _ _ H).
  - unfold impl_to_tokens in H. destruct vs as [|[x|ts|ts|ts|x p|d r|ts|ts] [|]]; try discriminate H. injection H as <-. apply kept_grows. auto.
  - unfold impl_raw in H. destruct vs as [|[x|ts|ts|ts|x p|d r|ts|ts] [|]]; try discriminate H. injection H as <-. apply kept_grows. auto.
  - unfold impl_normalize in H. destruct vs as [|[x|ts|ts|ts|x p|d r|ts|ts] [|]]; try discriminate H.
    apply (normalized_grows _ _ _ _ H (print_bulk ts)). rewrite total_one. apply N.le_refl.
  - unfold impl_normalize2_ident in H. destruct vs as [|[x|ts|ts|ts|x p|d r|ts|ts] [|]]; try discriminate H.
    apply (normalized_grows _ _ _ _ H (own_c x)). rewrite total_one, value_bulk_ident. lia.
  - unfold impl_normalize2_str in H. destruct vs as [|[x|ts|ts|ts|x p|d r|ts|ts] [|]]; try discriminate H.
    apply (normalized_grows _ _ _ _ H (own_c x)). rewrite total_one, value_bulk_str. lia.
  - unfold impl_normalize2_int in H. destruct vs as [|[x|ts|ts|ts|x p|d r|ts|ts] [|]]; try discriminate H.
    apply (normalized_grows _ _ _ _ H (own_c d)). rewrite total_one, value_bulk_int. lia.
  - unfold impl_normalize2_path in H. destruct vs as [|[x|ts|ts|ts|x p|d r|ts|ts] [|]]; try discriminate H.
    apply (normalized_grows _ _ _ _ H (print_bulk ts)). rewrite total_one. apply N.le_refl.
  - unfold impl_normalize2_type in H. destruct vs as [|[x|ts|ts|ts|x p|d r|ts|ts] [|]]; try discriminate H.
    apply (normalized_grows _ _ _ _ H (print_bulk ts)). rewrite total_one. apply N.le_refl.
  - unfold impl_normalize2_expr in H. destruct vs as [|[x|ts|ts|ts|x p|d r|ts|ts] [|]]; try discriminate H.
    apply (normalized_grows _ _ _ _ H (print_bulk ts)). rewrite total_one. apply N.le_refl.
  - unfold impl_normalize2_tokens in H. destruct vs as [|[x|ts|ts|ts|x p|d r|ts|ts] [|]]; try discriminate H.
    apply (normalized_grows _ _ _ _ H (print_bulk ts)). rewrite total_one. apply N.le_refl.
  - unfold impl_hash_str in H. destruct vs as [|[x|ts|ts|ts|x p|d r|ts|ts] [|]]; try discriminate H. injection H as <-.
    unfold new_lit_str, fn_hash. rewrite value_bulk_str, long_nil. pose proof (hash_short _ (modest_hash c O HO seed x)) as Hs.
    apply (grown_c _ _ 0); [|apply N.le_0_l]. clear - Hs. revert Hs. generalize (long (decimal (hash64 O seed x))). intros m. lia.
  - unfold impl_hash_ident in H. destruct vs as [|[x|ts|ts|ts|x p|d r|ts|ts] [|]]; try discriminate H. exact (hashed_grows _ _ _ _ H).
  - unfold impl_hash_tokens in H. destruct vs as [|[x|ts|ts|ts|x p|d r|ts|ts] [|]]; try discriminate H. exact (hashed_grows _ _ _ _ H).
Qed.
Lemma builtin_grows seed id name fs f sd vs v : get_func_variants (new_initialized O seed id) name = Some fs -> In f fs ->
  f_impl f sd vs = Ok v -> (value_bulk v <= grown vs)%N.
Proof.
  intros Hg Hf Hv. apply number_rows_assoc in Hg as (k & rs & Hin & ->). apply number_variants_in in Hf as [Hf _].
  pose proof table_grows as H. rewrite Forall_forall in H. specialize (H _ Hin). unfold row_grows in H.
  rewrite Forall_forall in H. exact (H _ Hf sd vs v Hv).
Qed.

(** ** Expressions and definitions *)
Definition rate : N := (30 * (c * c) * (c * c))%N.
Lemma rate_pos : (1 <= rate)%N.
Proof. unfold rate. pose proof cc1. nia. Qed.
Lemma extent_pos e : (1 <= extent rate e)%N.
Proof. pose proof rate_pos. destruct e; cbn [extent]; nia. Qed.
Lemma mapM_Forall2 {A B} (f : A -> res B) l : forall l', mapM f l = Ok l' -> Forall2 (fun a b => f a = Ok b) l l'.
Proof.
  induction l as [|a l IH]; intros l' H; cbn [mapM] in H; [injection H as <-; constructor|].
  destruct (f a) as [b| |] eqn:E; cbn [bind] in H; try discriminate H. destruct (mapM f l) as [bs| |]; cbn [bind] in H; try discriminate H.
  injection H as <-. constructor; [exact E|]. apply IH. reflexivity.
Qed.

Section Run.
Context (seed id : N).
Let env := new_initialized O seed id.

Lemma elab_grows G e : forall ex te d sd ctx M v, elab env G e ex = inl (te, d) ->
  (forall x w, assoc_str x ctx = Some w -> (value_bulk w <= M)%N) -> (1 <= M)%N ->
  run O sd ctx te = Ok v -> (value_bulk v <= extent rate e * M)%N.
Proof.
  induction e as [eid v0|eid name args raw IH] using expr_ind'; intros ex te d sd ctx M v He Hctx HM Hr.
  - cbn [elab] in He. destruct (coercion_cost _ _); [|discriminate]. injection He as <- <-. cbn [run] in Hr.
    set (v' := match v0 with VIdent x => match assoc_str x ctx with Some w => w | None => v0 end | _ => v0 end) in *.
    assert (Hv' : (value_bulk v' <= (1 + value_bulk v0) * M)%N).
    { unfold v'. destruct v0 as [x| | | | | | | ]; try nia. destruct (assoc_str x ctx) as [w|] eqn:Ex; [apply Hctx in Ex|]; nia. }
    destruct (try_cast O v' _) as [w| |] eqn:Et; cbn [coerced] in Hr; try discriminate Hr. injection Hr as ->. apply cast_bulk in Et.
    cbn [extent]. unfold rate. pose proof cc1 as Hq. clear - Et Hv' Hq. revert Et Hq. generalize (c * c)%N. intros q Et Hq.
    eapply N.le_trans; [exact Et|]. rewrite <- N.mul_assoc.
    apply N.mul_le_mono; [nia|exact Hv'].
  - cbn [elab] in He. destruct (get_func_variants env name) as [fs|] eqn:Eg; [|discriminate].
    destruct (best _) as [[[d0 f] tes]|] eqn:E; [|discriminate]. injection He as <- <-.
    apply best_in, viable_in in E as [Hf E]. cbn [run] in Hr.
    destruct (mapM (run O sd ctx) tes) as [vs| |] eqn:Em; cbn [bind] in Hr; try discriminate Hr.
    destruct (f_impl f sd vs) as [r| |] eqn:Ei; cbn [bind] in Hr; try discriminate Hr.
    apply cast_bulk in Hr. apply (builtin_grows seed id name fs f sd vs r Eg Hf) in Ei.
    assert (HT : (total_bulk vs <= (sum (map (extent rate) args) + match raw with Some (_, ts) => bulk ts | None => 0 end) * M)%N).
    { apply mapM_Forall2 in Em.
      apply elab_func_inv in E as (c0 & _ & [(ts & _ & Hraw & _ & ->)|(_ & ps & c' & Hp & Ha & _)]).
      - destruct raw as [[rid rts]|]; cbn [option_map] in Hraw; [|discriminate]. injection Hraw as ->.
        inversion Em as [|? v1 ? vs1 H1 H2]; subst. inversion H2; subst. cbn in H1. injection H1 as <-. rewrite total_one.
        change (value_bulk (VRaw ts)) with (bulk ts). nia.
      - apply elab_args_inv in Ha; [|rewrite (params_length _ _ _ Hp), map_length; reflexivity].
        apply params_length in Hp. rewrite map_length in Hp.
        assert (HS : (total_bulk vs <= sum (map (extent rate) args) * M)%N).
        { clear - IH Ha Em Hctx HM Hp. revert ps tes vs Ha Em Hp. induction IH as [|a args Ha0 _ IHargs]; intros ps tes vs Ha Em Hp.
          - destruct ps; [|discriminate Hp]. inversion Ha; subst. inversion Em; subst. cbn. lia.
          - destruct ps as [|pt ps]; [discriminate Hp|]. cbn [map combine] in Ha. inversion Ha as [|? te ? tes1 (d1 & H1) H2]; subst.
            inversion Em as [|? v1 ? vs1 H3 H4]; subst. cbn [fst snd] in H1.
            pose proof (Ha0 _ _ _ _ _ _ _ H1 Hctx HM H3) as Hb.
            specialize (IHargs _ _ _ H2 H4 ltac:(injection Hp; auto)). unfold total_bulk in *. cbn [map]. rewrite !sum_cons. nia. }
        nia. }
    cbn [extent]. unfold grown in Ei. eapply N.le_trans; [exact Hr|].
    assert (Hx : (value_bulk r <= 30 * (c * c) * ((1 + sum (map (extent rate) args) + match raw with Some (_, ts) => bulk ts | None => 0 end) * M))%N).
    { eapply N.le_trans; [exact Ei|]. apply N.mul_le_mono_l. clear - HT HM. lia. }
    eapply N.le_trans; [apply N.mul_le_mono_l; exact Hx|]. unfold rate at 2. clear. generalize (c * c)%N. intros q.
    match goal with |- (q * (30 * q * (?a * M)) <= _)%N => generalize a end. intros a. apply N.eq_le_incl. ring.
Qed.

Lemma items_grow items : forall G sd ctx M tis bs, elab_items env G items = Ok tis ->
  (forall x w, assoc_str x ctx = Some w -> (value_bulk w <= M)%N) -> (1 <= M)%N ->
  run_items O sd ctx tis = Ok bs ->
  forall n x v, nth_error bs n = Some (x, v) -> (value_bulk v <= M * growth rate (firstn (S n) items))%N.
Proof.
  induction items as [|[name e] items IH]; intros G sd ctx M tis bs He Hctx HM Hr n x v Hn; cbn [elab_items] in He.
  - injection He as <-. cbn in Hr. injection Hr as <-. destruct n; discriminate Hn.
  - destruct (elab env G e None) as [[te d]|] eqn:Ee; [|discriminate]. destruct (assoc_str name G); [discriminate|].
    destruct (elab_items env ((name, target_of te) :: G) items) as [tis'| |] eqn:Et; cbn [bind] in He; try discriminate He.
    injection He as <-. cbn [run_items] in Hr.
    destruct (run O sd ctx te) as [w| |] eqn:Ew; cbn [bind] in Hr; try discriminate Hr.
    destruct (run_items O sd _ tis') as [bs'| |] eqn:Eb; cbn [bind] in Hr; try discriminate Hr. injection Hr as <-.
    pose proof (elab_grows _ _ _ _ _ _ _ _ _ Ee Hctx HM Ew) as Hw. pose proof (extent_pos e) as Hp.
    destruct n as [|n]; cbn [nth_error] in Hn.
    + injection Hn as <- <-. cbn [firstn]. unfold growth, product. cbn [map fold_right snd]. lia.
    + change (firstn (S (S n)) ((name, e) :: items)) with ((name, e) :: firstn (S n) items).
      unfold growth, product. cbn [map fold_right snd].
      assert (Hctx' : forall y u, assoc_str y ((name, w) :: ctx) = Some u -> (value_bulk u <= extent rate e * M)%N).
      { intros y u. cbn [assoc_str]. destruct (str_eqb y name); [intros Hu; injection Hu as <-; exact Hw|].
        intros Hu. apply Hctx in Hu. nia. }
      specialize (IH _ _ _ (extent rate e * M)%N _ _ Et Hctx' ltac:(nia) Eb _ _ _ Hn). unfold growth, product in IH.
      eapply N.le_trans; [exact IH|]. apply N.eq_le_incl. ring.
Qed.

Lemma bindings_grow items bs n x v : bindings O env items = Ok bs -> nth_error bs n = Some (x, v) ->
  (bulk (to_tokens v) <= growth (30 * c ^ 4) (firstn (S n) items))%N.
Proof.
  unfold bindings. destruct (elab_items env [] items) as [tis| |] eqn:E; cbn [bind]; try discriminate. intros Hr Hn.
  replace (30 * c ^ 4)%N with rate by (unfold rate; change 4%N with (N.succ (N.succ (N.succ (N.succ 0)))); rewrite !N.pow_succ_r'; rewrite N.pow_0_r; ring).
  eapply N.le_trans; [refine (items_grow _ _ _ _ 1 _ _ E _ _ Hr _ _ _ Hn)|lia]; [intros y w Hy; discriminate Hy|lia].
Qed.
End Run.

(** ** The code *)
Lemma shown_bulk v : (long (format_value O v) <= c * value_bulk v)%N.
Proof.
  destruct v as [x|ts|ts|ts|x p|d r|ts|ts]; cbn [format_value]; try apply print_bulk.
  - rewrite value_bulk_ident. clearbody Hc. nia.
  - eapply N.le_trans; [|apply (modest_segments c O HO)]; cbn [to_tokens]. generalize (path_segments O ts). clear.
    induction l as [|x l IH]; [cbn; lia|]. cbn [map]. rewrite sum_cons. destruct l as [|y l]; [cbn [join map]; unfold sum; cbn [fold_right]; lia|].
    change (join (txt "::") (x :: y :: l)) with (x ++ txt "::" ++ join (txt "::") (y :: l)). rewrite !long_app.
    change (long (txt "::")) with 2%N. lia.
  - rewrite value_bulk_str. clearbody Hc. nia.
  - rewrite value_bulk_int. clearbody Hc. nia.
Qed.

Section Substituted.
Context (lookup : str -> option value) (W : N) (HW : (1 <= W)%N).
Hypothesis Hl : forall x v, lookup x = Some v -> (value_bulk v <= W)%N.
Let B : N := (c * W)%N.
Lemma B_pos : (1 <= B)%N.
Proof. unfold B. clearbody Hc. nia. Qed.

Definition measured (st : fstate) (n : N) : Prop :=
  exists m, (long (formatted st) <= m * B)%N /\ (m + long (placeholder_text st) <= n)%N.
Lemma step_measured st ch n : measured st n -> measured (format_step O lookup st ch) (n + 1).
Proof.
  intros (m & Hm & Hn). unfold format_step. pose proof B_pos as HB. unfold measured.
  assert (Hshow : forall v, (value_bulk v <= W)%N -> (long (format_value O v) <= B)%N)
    by (intros v Hv; eapply N.le_trans; [apply shown_bulk|apply N.mul_le_mono_l; exact Hv]).
  clearbody B.
  set (t := long (placeholder_text st)) in *.
  destruct (is_percent ch).
  - destruct (match prev_c st with Some p => is_percent p | None => false end).
    + exists (m + 1)%N. cbn [formatted placeholder_text]. rewrite long_app, long_cons, !long_nil. nia.
    + destruct (in_placeholder st).
      * destruct (lookup (placeholder st)) as [v|] eqn:E.
        -- exists (m + 1)%N. cbn [formatted placeholder_text]. rewrite long_app, long_nil. apply Hl in E.
           apply Hshow in E. nia.
        -- exists (m + t + 1)%N. cbn [formatted placeholder_text]. rewrite !long_app, long_cons, !long_nil. fold t. nia.
      * exists m. cbn [formatted placeholder_text]. rewrite long_app, long_cons, long_nil. fold t. lia.
  - destruct (in_placeholder st); [destruct (is_whitespace O ch)|].
    + exists m. cbn [formatted placeholder_text]. rewrite long_app, long_cons, long_nil. fold t. lia.
    + exists m. cbn [formatted placeholder_text]. rewrite long_app, long_cons, long_nil. fold t. lia.
    + exists (m + 1)%N. cbn [formatted placeholder_text]. rewrite long_app, long_cons, long_nil. fold t. nia.
Qed.
Lemma fold_measured x : forall st n, measured st n -> measured (fold_left (format_step O lookup) x st) (n + long x).
Proof.
  induction x as [|ch x IH]; intros st n H; cbn [fold_left]; [rewrite long_nil, N.add_0_r; exact H|].
  rewrite long_cons, N.add_assoc. apply IH, step_measured, H.
Qed.
Lemma format_measured x : (long (format_string O lookup x) <= long x * B)%N.
Proof.
  unfold format_string. destruct (fold_measured x fstart 0) as (m & Hm & Hn); [exists 0%N; cbn; lia|].
  set (st := fold_left _ _ _) in *. pose proof B_pos as HB. clearbody B.
  destruct (in_placeholder st); [rewrite long_app|]; nia.
Qed.

Lemma replaced_bulk t : (bulk (replaced (tokens_of lookup) (literal_of O lookup) t) <= c * c * W * letters t)%N.
Proof.
  pose proof cc1 as Hq. pose proof cc2 as Hq2.
  assert (Hqw : (1 <= c * c * W)%N) by nia.
  assert (Same : forall u, (bulk [u] <= c * c * W * letters u)%N) by (intros u; rewrite bulk_cons; unfold bulk, sum; cbn [map fold_right]; nia).
  induction t as [x|ch j|l|d ts IH] using tt_ind'; cbn [replaced]; [| apply Same| |].
  - unfold tokens_of, option_map. destruct (lookup x) as [v|] eqn:E; [|apply Same]. apply Hl in E.
    unfold value_bulk in E. cbn [letters]. eapply N.le_trans; [exact E|]. clear - Hq. nia.
  - unfold literal_of. destruct (parse_lit_str O [TLit l]) as [[v p]|] eqn:E; [|apply Same].
    apply (modest_lit_str c O HO) in E. rewrite bulk_cons in E. unfold bulk, sum in E. cbn [map fold_right] in E.
    change (bulk [TLit (LStr (format_string O lookup v) [])]) with (value_bulk (VLitStr (format_string O lookup v) [])). rewrite value_bulk_str, long_nil.
    pose proof (format_measured v) as Hf. unfold B in Hf.
    assert (Hx : ((1 + long v) * (c * W) <= c * letters (TLit l) * (c * W))%N) by (apply N.mul_le_mono_r; lia).
    replace (c * c * W * letters (TLit l))%N with (c * letters (TLit l) * (c * W))%N by ring.
    eapply N.le_trans; [|exact Hx]. assert (1 <= c * W)%N by (clear - HW HO; pose proof (modest_factor c O HO); nia). nia.
  - rewrite bulk_cons. unfold bulk at 1, sum at 1. cbn [map fold_right letters].
    assert (Hs : (bulk (flat_map (replaced (tokens_of lookup) (literal_of O lookup)) ts) <= c * c * W * sum (map letters ts))%N).
    { clear - IH. induction IH as [|t ts Ht _ IHts]; [cbn; lia|]. cbn [flat_map map]. rewrite bulk_app, sum_cons. nia. }
    unfold bulk in Hs. nia.
Qed.
Lemma substituted_bulk ts : (bulk (substituted O lookup ts) <= c * c * W * bulk ts)%N.
Proof.
  unfold substituted, replaced_stream. induction ts as [|t ts IH]; [cbn; lia|]. cbn [flat_map]. rewrite bulk_app, bulk_cons.
  pose proof (replaced_bulk t). nia.
Qed.
End Substituted.
End Growth.
