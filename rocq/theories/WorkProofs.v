(** Proofs for C52. *)
From Coq Require Import String.
From Verif Require Import Base BaseFacts Token Types Values Ast Env Resolve Work SpecWork SpecElab ElabProofs ElabFacts CallFacts CostProofs.
Open Scope list_scope.

(** ** Counting changes nothing *)
Lemma fst_cbind {A B} (x : counted A) (f : A -> counted B) g : (forall a, fst (f a) = g a) -> fst (cbind x f) = bind (fst x) g.
Proof. intros H. destruct x as [[a|e|p] n]; cbn; [|reflexivity|reflexivity]. rewrite <- H. destruct (f a). reflexivity. Qed.
Lemma snd_cbind_le {A B} (x : counted A) (f : A -> counted B) m : (forall a, fst x = Ok a -> (snd (f a) <= m)%N) -> (snd (cbind x f) <= snd x + m)%N.
Proof. intros H. destruct x as [[a|e|p] n]; cbn; [|lia|lia]. specialize (H a eq_refl). destruct (f a). cbn in *. lia. Qed.
Lemma snd_cbind_ge {A B} (x : counted A) (f : A -> counted B) : (snd x <= snd (cbind x f))%N.
Proof. destruct x as [[a|e|p] n]; cbn; try lia. destruct (f a). cbn. lia. Qed.

Section Same.
Context (env : environment).
Definition uncounted (a : expr * cresolver) (b : expr * resolver) : Prop := fst a = fst b /\ forall sc t, fst (snd a sc t) = snd b sc t.

Lemma arg_same mult t a b st : uncounted a b -> fst (cresolve_arg mult t a st) = resolve_arg mult t b st.
Proof.
  intros [H1 H2]. destruct st as [[sc cost] acc]. unfold cresolve_arg, resolve_arg. rewrite <- H2, H1. apply fst_cbind. reflexivity.
Qed.
Lemma fixed_same args args' : Forall2 uncounted args args' -> forall ts st, fst (cresolve_fixed ts args st) = resolve_fixed ts args' st.
Proof.
  induction 1 as [|a b args args' Hab _ IH]; intros [|t ts] st; try reflexivity. cbn [cresolve_fixed resolve_fixed].
  rewrite <- (arg_same 1 t a b) by exact Hab. apply fst_cbind. intros. apply IH.
Qed.
Lemma variadic_same t args args' : Forall2 uncounted args args' -> forall st, fst (cresolve_variadic t args st) = resolve_variadic t args' st.
Proof.
  induction 1 as [|a b args args' Hab _ IH]; intros st; [reflexivity|]. cbn [cresolve_variadic resolve_variadic].
  rewrite <- (arg_same 2 t a b) by exact Hab. apply fst_cbind. intros. apply IH.
Qed.
Lemma forall2_skipn {A B} (R : A -> B -> Prop) n l l' : Forall2 R l l' -> Forall2 R (skipn n l) (skipn n l').
Proof. intros H. revert n. induction H; intros [|n]; cbn; auto. Qed.
Lemma forall2_length {A B} (R : A -> B -> Prop) l l' : Forall2 R l l' -> List.length l = List.length l'.
Proof. induction 1; cbn; congruence. Qed.
Lemma call_same f args args' raw sc t : Forall2 uncounted args args' -> fst (cresolve_call_for_func f args raw sc t) = resolve_call_for_func f args' raw sc t.
Proof.
  intros H. unfold cresolve_call_for_func, resolve_call_for_func. rewrite (forall2_length _ _ _ H).
  destruct (match t with Some _ => _ | None => _ end) as [c0|]; [|reflexivity].
  assert (Hr : fst (cbind (cresolve_fixed (non_variadic_arg_types f) args (sc, c0, [])) (fun st =>
            match variadic_arg_type f with
            | Some t => cresolve_variadic t (skipn (List.length (non_variadic_arg_types f)) args) st
            | None => cret (Ok st)
            end)) = let! st := resolve_fixed (non_variadic_arg_types f) args' (sc, c0, []) in
            match variadic_arg_type f with
            | Some t => resolve_variadic t (skipn (List.length (non_variadic_arg_types f)) args') st
            | None => Ok st
            end).
  { rewrite <- (fixed_same args args' H). apply fst_cbind. intros st. destruct (variadic_arg_type f); [|reflexivity].
    apply variadic_same. apply forall2_skipn. exact H. }
  cbn zeta. destruct (f_arg_types f) as [|[] [|]]; try (destruct (if is_variadic f then _ else _); [exact Hr|reflexivity]).
  destruct raw as [[rid ts]|]; [|destruct (if is_variadic f then _ else _); [exact Hr|reflexivity]].
  rewrite <- (fst_cbind (resolve_value sc rid (VRaw ts) (Some TyRaw), 1%N) (fun sc' => cret (Ok (sc', c0, [EValue rid (VRaw ts)])))); reflexivity.
Qed.
Lemma candidates_same fs args args' raw sc t : Forall2 uncounted args args' -> fst (ctry_candidates fs args raw sc t) = try_candidates fs args' raw sc t.
Proof.
  intros H. induction fs as [|f fs IH]; [reflexivity|]. cbn [ctry_candidates try_candidates]. rewrite <- (call_same f args args') by exact H.
  destruct (cresolve_call_for_func f args raw sc t) as [[[[sc' cost] rargs]|e|p] n]; cbn [fst].
  - rewrite <- IH. cbn [cbind]. destruct (ctry_candidates fs args raw sc t) as [[rest|e|p] m]; reflexivity.
  - destruct e; try reflexivity; rewrite <- IH; cbn [cbind]; destruct (ctry_candidates fs args raw sc t); reflexivity.
  - reflexivity.
Qed.
Lemma expr_same e : forall sc t, fst (cresolve_expr env e sc t) = resolve_expr env e sc t.
Proof.
  induction e as [id v|id name args raw IH] using expr_ind'; intros sc t; [reflexivity|]. cbn [cresolve_expr resolve_expr].
  unfold cresolve_call, resolve_call. destruct (get_func_variants env name) as [fs|]; [|reflexivity].
  rewrite <- (candidates_same fs (map (fun a => (a, cresolve_expr env a)) args)).
  - destruct (ctry_candidates _ _ _ _ _) as [[cands|e|p] n]; [|reflexivity|reflexivity]. cbn [cbind fst bind cret]. reflexivity.
  - induction IH as [|a args Ha _ IHa]; [constructor|]. cbn [map]. constructor; [|exact IHa]. split; [reflexivity|exact Ha].
Qed.
End Same.

(** ** Upper bound *)
Section Upper.
Context (env : environment) (V : N) (HV : forall name fs, get_func_variants env name = Some fs -> (N.of_nat (List.length fs) <= V)%N).
Notation total := (fun l : list expr => fold_right N.add 0%N (map (work_bound V) l)).
Definition cheap (a : expr * cresolver) : Prop := forall sc t, (snd (snd a sc t) <= work_bound V (fst a))%N.

Lemma arg_work mult t a st : cheap a -> (snd (cresolve_arg mult t a st) <= work_bound V (fst a))%N.
Proof.
  intros H. destruct st as [[sc cost] acc]. unfold cresolve_arg. etransitivity; [apply (snd_cbind_le _ _ 0%N)|].
  - intros. cbn. lia.
  - specialize (H sc (Some t)). lia.
Qed.
Lemma fixed_work args : Forall cheap args -> forall ts st,
  (snd (cresolve_fixed ts args st) <= total (map fst (firstn (List.length ts) args)))%N.
Proof.
  induction 1 as [|a args Ha _ IH]; intros [|t ts] st; try (cbn; lia). cbn [cresolve_fixed List.length firstn map fold_right].
  etransitivity; [apply snd_cbind_le; intros; apply IH|]. pose proof (arg_work 1 t a st Ha). lia.
Qed.
Lemma variadic_work t args : Forall cheap args -> forall st, (snd (cresolve_variadic t args st) <= total (map fst args))%N.
Proof.
  induction 1 as [|a args Ha _ IH]; intros st; [cbn; lia|]. cbn [cresolve_variadic map fold_right].
  etransitivity; [apply snd_cbind_le; intros; apply IH|]. pose proof (arg_work 2 t a st Ha). lia.
Qed.
Lemma total_split' n (args : list (expr * cresolver)) : (total (map fst (firstn n args)) + total (map fst (skipn n args)) = total (map fst args))%N.
Proof.
  revert args. induction n as [|n IH]; intros args; [cbn; lia|]. destruct args as [|a args]; [reflexivity|]. cbn [firstn skipn map fold_right].
  specialize (IH args). cbn beta in IH. lia.
Qed.
Lemma call_work f args raw sc t : Forall cheap args -> (snd (cresolve_call_for_func f args raw sc t) <= 1 + total (map fst args))%N.
Proof.
  intros H. unfold cresolve_call_for_func. destruct (match t with Some _ => _ | None => _ end) as [c0|]; [|cbn; lia].
  assert (Hr : (snd (cbind (cresolve_fixed (non_variadic_arg_types f) args (sc, c0, [])) (fun st =>
            match variadic_arg_type f with
            | Some t => cresolve_variadic t (skipn (List.length (non_variadic_arg_types f)) args) st
            | None => cret (Ok st)
            end)) <= 1 + total (map fst args))%N).
  { pose proof (total_split' (List.length (non_variadic_arg_types f)) args) as Hs. cbn beta in Hs.
    etransitivity; [apply (snd_cbind_le _ _ (total (map fst (skipn (List.length (non_variadic_arg_types f)) args))))|].
    - intros st _. destruct (variadic_arg_type f); [|cbn; lia]. apply variadic_work. rewrite <- (firstn_skipn (List.length (non_variadic_arg_types f)) args) in H.
      apply Forall_app in H. apply H.
    - pose proof (fixed_work args H (non_variadic_arg_types f) (sc, c0, [])). cbn beta in *. lia. }
  cbn zeta. destruct (f_arg_types f) as [|[] [|]]; try (destruct (if is_variadic f then _ else _); [exact Hr|cbn; lia]).
  destruct raw as [[rid ts]|]; [|destruct (if is_variadic f then _ else _); [exact Hr|cbn; lia]].
  destruct (resolve_value _ _ _ _); cbn [cbind cret snd]; lia.
Qed.
Lemma candidates_work fs args raw sc t : Forall cheap args ->
  (snd (ctry_candidates fs args raw sc t) <= N.of_nat (List.length fs) * (1 + total (map fst args)))%N.
Proof.
  intros H. induction fs as [|f fs IH]; [cbn; lia|]. cbn [ctry_candidates List.length]. rewrite Nat2N.inj_succ, N.mul_succ_l. pose proof (call_work f args raw sc t H) as Hf.
  destruct (cresolve_call_for_func f args raw sc t) as [[[[sc' cost] rargs]|e|p] n]; cbn [snd] in Hf.
  - cbn [cbind]. pose proof (snd_cbind_le (ctry_candidates fs args raw sc t) (fun rest => cret (Ok ((cost, sc', f, rargs) :: rest))) 0%N (fun _ _ => N.le_refl _)) as Hb.
    destruct (cbind _ _) as [r m]. cbn [snd] in *. lia.
  - destruct e; cbn [cbind]; try (destruct (ctry_candidates fs args raw sc t); cbn [snd] in *; lia).
  - cbn [snd]. lia.
Qed.
Lemma expr_work e : forall sc t, (snd (cresolve_expr env e sc t) <= work_bound V e)%N.
Proof.
  induction e as [id v|id name args raw IH] using expr_ind'; intros sc t; [cbn; lia|]. cbn [cresolve_expr work_bound].
  unfold cresolve_call. destruct (get_func_variants env name) as [fs|] eqn:E; [|cbn [cret snd]; rewrite N.add_0_r; apply N.le_add_r]. apply HV in E.
  assert (Ha : Forall cheap (map (fun a => (a, cresolve_expr env a)) args)) by (apply Forall_map; eapply Forall_impl; [|exact IH]; intros a H; exact H).
  pose proof (candidates_work fs _ raw sc t Ha) as Hc. rewrite map_fst_pair in Hc. cbn beta in Hc.
  destruct (ctry_candidates _ _ _ _ _) as [[cands|er|p] n]; cbn [cbind cret snd] in *; nia.
Qed.
End Upper.

(** ** Lower bound *)
Section Lower.
Context (O : oracles) (seed first : N).
Let env := new_initialized O seed first.

Lemma chain_size n : forall id, size (chain n id) = (2 * N.of_nat n + 1)%N.
Proof. induction n as [|n IH]; intros id; [reflexivity|]. cbn [chain size map fold_right]. rewrite IH. lia. Qed.

Lemma x_resolves id sc : sc_aliases sc = [] -> resolve_value sc id (VIdent (txt "x")) (Some TyIdent) = Ok (set_value_meta sc id TyIdent 0).
Proof. intros H. unfold resolve_value, from_type. rewrite H. reflexivity. Qed.
Lemma x_tokens id sc : sc_aliases sc = [] -> resolve_value sc id (VIdent (txt "x")) (Some TyTokens) = Ok (set_value_meta sc id TyTokens 4).
Proof. intros H. unfold resolve_value, from_type. rewrite H. reflexivity. Qed.

(** Both identifier overloads resolve the first argument. *)
Lemma two_overloads k n id raw sc ex c0 : sc_aliases sc = [] ->
  match ex with Some t => coercion_cost TyIdent t | None => Some 0%N end = Some c0 ->
  (forall sc, sc_aliases sc = [] -> exists sc' m, cresolve_expr env (chain n (id + 2)) sc (Some TyIdent) = (Ok sc', m) /\ sc_aliases sc' = [] /\ (2 ^ N.of_nat n <= m)%N) ->
  let args := [(chain n (id + 2)%N, cresolve_expr env (chain n (id + 2))); (EValue (id + 1)%N (VIdent (txt "x")), cresolve_expr env (EValue (id + 1) (VIdent (txt "x"))))] in
  exists sc1 m1 c1 sc2 m2 c2 r1 r2,
    cresolve_call_for_func (mkf (txt "concat") k ([TyVariadic TyIdent], TyIdent, impl_concat_idents O)) args raw sc ex = (Ok (sc1, c1, r1), m1) /\
    cresolve_call_for_func (mkf (txt "concat") (N.succ k) ([TyIdent; TyVariadic TyTokens], TyIdent, impl_concat_ident_tokens O)) args raw sc ex = (Ok (sc2, c2, r2), m2) /\
    sc_aliases sc1 = [] /\ sc_aliases sc2 = [] /\ (2 ^ N.of_nat n <= m1)%N /\ (2 ^ N.of_nat n <= m2)%N.
Proof.
  intros Hsc Hc Hn args. destruct (Hn sc Hsc) as (sc' & m & He & Ha & Hm).
  pose proof (expr_bounded env (chain n (id + 2)) sc (Some TyIdent) sc') as Hb. rewrite <- (expr_same env), He in Hb. destruct (Hb eq_refl) as (c & Hrc & _).
  assert (H1 : cresolve_call_for_func (mkf (txt "concat") k ([TyVariadic TyIdent], TyIdent, impl_concat_idents O)) args raw sc ex =
     (Ok (set_value_meta sc' (id + 1) TyIdent 0, (c0 + c * 2 + 0 * 2)%N, [chain n (id + 2); EValue (id + 1) (VIdent (txt "x"))]), (m + 1)%N)).
  { unfold cresolve_call_for_func. cbn [mkf f_out_type f_arg_types fst snd]. rewrite Hc. unfold args.
    change (is_variadic (mkf (txt "concat") k ([TyVariadic TyIdent], TyIdent, impl_concat_idents O))) with true. cbn iota.
    change (non_variadic_arg_types (mkf (txt "concat") k ([TyVariadic TyIdent], TyIdent, impl_concat_idents O))) with (@nil ty).
    change (variadic_arg_type (mkf (txt "concat") k ([TyVariadic TyIdent], TyIdent, impl_concat_idents O))) with (Some TyIdent).
    change (num_args (mkf (txt "concat") k ([TyVariadic TyIdent], TyIdent, impl_concat_idents O))) with 1.
    cbn [List.length Nat.leb cresolve_fixed cret cbind skipn cresolve_variadic cresolve_arg fst snd]. rewrite He. cbn [cbind cret]. rewrite Hrc. cbn [bind].
    cbn [cresolve_expr cresolve_arg fst snd]. rewrite (x_resolves (id + 1) sc' Ha). cbn [cbind cret recorded_cost set_value_meta sc_values assoc_N]. rewrite N.eqb_refl. cbn [bind vm_cost].
    cbn [app]. match goal with |- (Ok (_, ?a, _), ?n) = (Ok (_, ?b, _), ?n') => replace a with b by lia; replace n with n' by lia; reflexivity end. }
  assert (H2 : cresolve_call_for_func (mkf (txt "concat") (N.succ k) ([TyIdent; TyVariadic TyTokens], TyIdent, impl_concat_ident_tokens O)) args raw sc ex =
     (Ok (set_value_meta sc' (id + 1) TyTokens 4, (c0 + c * 1 + 4 * 2)%N, [chain n (id + 2); EValue (id + 1) (VIdent (txt "x"))]), (m + 1)%N)).
  { unfold cresolve_call_for_func. cbn [mkf f_out_type f_arg_types fst snd]. rewrite Hc. unfold args.
    change (is_variadic (mkf (txt "concat") (N.succ k) ([TyIdent; TyVariadic TyTokens], TyIdent, impl_concat_ident_tokens O))) with true. cbn iota.
    change (non_variadic_arg_types (mkf (txt "concat") (N.succ k) ([TyIdent; TyVariadic TyTokens], TyIdent, impl_concat_ident_tokens O))) with [TyIdent].
    change (variadic_arg_type (mkf (txt "concat") (N.succ k) ([TyIdent; TyVariadic TyTokens], TyIdent, impl_concat_ident_tokens O))) with (Some TyTokens).
    change (num_args (mkf (txt "concat") (N.succ k) ([TyIdent; TyVariadic TyTokens], TyIdent, impl_concat_ident_tokens O))) with 2.
    cbn [List.length Nat.leb cresolve_fixed cret cbind skipn cresolve_variadic cresolve_arg fst snd]. rewrite He. cbn [cbind cret]. rewrite Hrc. cbn [bind].
    cbn [List.length cresolve_fixed cret cbind skipn cresolve_variadic cresolve_expr cresolve_arg fst snd]. rewrite (x_tokens (id + 1) sc' Ha). cbn [cbind cret recorded_cost set_value_meta sc_values assoc_N]. rewrite N.eqb_refl. cbn [bind vm_cost].
    cbn [app]. match goal with |- (Ok (_, ?a, _), ?n) = (Ok (_, ?b, _), ?n') => replace a with b by lia; replace n with n' by lia; reflexivity end. }
  do 8 eexists. split; [exact H1|]. split; [exact H2|]. cbn [set_value_meta sc_aliases]. repeat split; auto; lia.
Qed.

Lemma chain_ident n : forall id sc, sc_aliases sc = [] ->
  exists sc' m, cresolve_expr env (chain n id) sc (Some TyIdent) = (Ok sc', m) /\ sc_aliases sc' = [] /\ (2 ^ N.of_nat n <= m)%N.
Proof.
  induction n as [|n IH]; intros id sc Hsc.
  - do 2 eexists. cbn [chain cresolve_expr]. rewrite x_resolves by exact Hsc. split; [reflexivity|]. split; [exact Hsc|]. cbn. lia.
  - cbn [chain cresolve_expr]. unfold cresolve_call. destruct (concat_variants O seed first) as (k & Hk). change (new_initialized O seed first) with env in Hk. rewrite Hk.
    cbn [map].
    destruct (two_overloads k n id None sc (Some TyIdent) 0 Hsc eq_refl (IH (id + 2)%N)) as (sc1 & m1 & c1 & sc2 & m2 & c2 & r1 & r2 & H1 & H2 & A1 & A2 & B1 & B2).
    cbn [number_variants concat_rows ctry_candidates]. cbn [mkf fst snd] in H1, H2.
    unfold mkf in H1, H2. cbn [fst snd] in H1, H2. rewrite H1, H2.
    cbn [cresolve_call_for_func f_out_type coercion_cost coercion_cost_basic ty_eqb cret cbind].
    unfold sort_by_key. cbn [fold_left insert_sorted].
    assert (Hm : (2 ^ N.of_nat (S n) <= 1 + (m1 + (m2 + 0)))%N) by (rewrite Nat2N.inj_succ, N.pow_succ_r'; lia).
    destruct (key_ltb _ _); do 2 eexists; (split; [reflexivity|]); (split; [assumption|]); lia.
Qed.

Lemma chain_work n id : (2 ^ N.of_nat n <= snd (cresolve_expr env (chain n id) empty_scope None))%N.
Proof.
  destruct n as [|n]; [cbn; lia|]. cbn [chain cresolve_expr]. unfold cresolve_call. destruct (concat_variants O seed first) as (k & Hk). change (new_initialized O seed first) with env in Hk. rewrite Hk.
  cbn [map].
  destruct (two_overloads k n id None empty_scope None 0 eq_refl eq_refl (chain_ident n (id + 2))) as (sc1 & m1 & c1 & sc2 & m2 & c2 & r1 & r2 & H1 & H2 & A1 & A2 & B1 & B2).
  unfold mkf in H1, H2. cbn [fst snd] in H1, H2.
  change (number_variants (txt "concat") k (concat_rows O)) with
    ({| f_id := k; f_name := txt "concat"; f_arg_types := [TyVariadic TyIdent]; f_out_type := TyIdent; f_impl := impl_concat_idents O |} ::
     {| f_id := N.succ k; f_name := txt "concat"; f_arg_types := [TyIdent; TyVariadic TyTokens]; f_out_type := TyIdent; f_impl := impl_concat_ident_tokens O |} ::
     number_variants (txt "concat") (N.succ (N.succ k)) (skipn 2 (concat_rows O))).
  generalize (number_variants (txt "concat") (N.succ (N.succ k)) (skipn 2 (concat_rows O))). intros rest.
  cbn [ctry_candidates]. rewrite H1, H2. cbn [cbind].
  destruct (ctry_candidates rest _ None empty_scope None) as [[cands|er|p] m3]; cbn [cbind cret snd]; rewrite Nat2N.inj_succ, N.pow_succ_r'; lia.
Qed.
End Lower.

(** The one overload of [raw] resolves the tokens once and the arguments not at all. *)
Lemma raw_work O seed first id args rid ts sc :
  snd (cresolve_expr (new_initialized O seed first) (ECall id (txt "raw") args (Some (rid, ts))) sc None) = 2%N.
Proof.
  cbn [cresolve_expr]. unfold cresolve_call.
  assert (H : exists k f, get_func_variants (new_initialized O seed first) (txt "raw") = Some [{| f_id := k; f_name := txt "raw"; f_arg_types := [TyRaw]; f_out_type := TyTokens; f_impl := f |}])
    by (do 2 eexists; reflexivity).
  destruct H as (k & f & ->). cbn [ctry_candidates cresolve_call_for_func f_arg_types f_out_type].
  destruct (resolve_value sc rid (VRaw ts) (Some TyRaw)) as [sc'|[]|p]; reflexivity.
Qed.

Lemma seven_overloads O seed first name fs : get_func_variants (new_initialized O seed first) name = Some fs -> (N.of_nat (List.length fs) <= 7)%N.
Proof.
  unfold get_func_variants, new_initialized. cbn [e_funcs].
  assert (Ht : forallb (fun r : row => N.leb (N.of_nat (List.length (snd r))) 7) (table O) = true) by reflexivity. revert first Ht. generalize (table O).
  induction l as [|[nm vs] l IH]; intros k Ht H; [discriminate|]. cbn [forallb] in Ht. apply andb_true_iff in Ht as [Hr Ht].
  cbn [number_rows assoc_str] in H. destruct (str_eqb name nm); [|eapply IH; eauto]. injection H as <-. apply N.leb_le in Hr. cbn [snd] in Hr.
  assert (Hl : forall k, List.length (number_variants nm k vs) = List.length vs).
  { clear. induction vs as [|[[a o] im] vs IH]; intros k; [reflexivity|]. cbn [number_variants List.length]. rewrite IH. reflexivity. }
  rewrite Hl. exact Hr.
Qed.
Lemma builtin_work O seed first e sc t : (snd (cresolve_expr (new_initialized O seed first) e sc t) <= work_bound 7 e)%N.
Proof. apply expr_work. apply seven_overloads. Qed.
