(** Nested calls: elaboration and evaluation give what SpecNesting says. *)
From Coq Require Import String.
From Verif Require Import Base BaseFacts Token Types TypesProofs Values Ast Env Resolve Eval SpecElab SpecScope SpecPrograms SpecCalls SpecFunctions SpecNesting
  ElabProofs ElabFacts BuiltinFacts BuiltinCasts CallFacts MoreCallFacts ResolveFacts FunctionProofs.
Open Scope list_scope.

(** ** Costs of overloads *)
Fixpoint cost_args (ps : list (ty * N)) (sk : list (ty * N)) : option N :=
  match ps, sk with
  | (t, m) :: ps', (s, k) :: r =>
      match coercion_cost s t, cost_args ps' r with
      | Some c, Some c' => Some ((c + k) * m + c')%N
      | _, _ => None
      end
  | _, _ => Some 0%N
  end.
Definition cost_func (f : func) (sk : list (ty * N)) (ex : option ty) : option N :=
  match match ex with Some t => coercion_cost (f_out_type f) t | None => Some 0%N end with
  | None => None
  | Some c0 =>
      match params f (List.length sk) with
      | None => None
      | Some ps => match cost_args ps sk with Some c => Some (c0 + c)%N | None => None end
      end
  end.

(** An argument of a type, with a cost of its own, at the wanted types [W]. *)
Definition gives (W : ty -> Prop) (x : elaborator) (sk : ty * N) : Prop :=
  forall t, W t -> match coercion_cost (fst sk) t with
                   | Some c => exists te, x (Some t) = inl (te, (c + snd sk)%N)
                   | None => exists er, x (Some t) = inr er
                   end.

Lemma elab_args_costs W ps : forall xs sk, List.length ps = List.length xs -> Forall2 (gives W) xs sk -> Forall (fun p => W (fst p)) ps ->
  match cost_args ps sk with Some c => exists tes, elab_args ps xs = Some (c, tes) | None => elab_args ps xs = None end.
Proof.
  induction ps as [|[t m] ps IH]; intros xs sk Hl Hx Hp.
  - destruct xs; [|discriminate]. eexists. reflexivity.
  - destruct Hx as [|x [s k] xs sk Hx Hxs]; [discriminate|]. injection Hl as Hl. inversion Hp as [|? ? Hw Hp']; subst. cbn [fst] in Hw.
    cbn [cost_args elab_args]. specialize (Hx t Hw). cbn [fst snd] in Hx. specialize (IH xs sk Hl Hxs Hp').
    destruct (coercion_cost s t) as [c|].
    + destruct Hx as [te ->]. destruct (cost_args ps sk) as [c'|].
      * destruct IH as [tes ->]. eexists. reflexivity.
      * rewrite IH. reflexivity.
    + destruct Hx as [er ->]. reflexivity.
Qed.


Lemma gives_length W xs sk : Forall2 (gives W) xs sk -> List.length xs = List.length sk.
Proof. induction 1; cbn; congruence. Qed.

Lemma elab_func_costs W f xs sk raw ex : raw = None \/ f_arg_types f <> [TyRaw] -> Forall2 (gives W) xs sk ->
  (forall ps, params f (List.length xs) = Some ps -> Forall (fun p => W (fst p)) ps) ->
  match cost_func f sk ex with Some c => exists tes, elab_func f xs raw ex = Some (c, tes) | None => elab_func f xs raw ex = None end.
Proof.
  intros Hr Hx Hp. assert (E : elab_func f xs raw ex = elab_func f xs None ex).
  { destruct Hr as [->|Hr]; [reflexivity|]. unfold elab_func. destruct (f_arg_types f) as [|t ts]; [reflexivity|]. destruct t; try reflexivity. destruct ts; [congruence|reflexivity]. }
  rewrite E. unfold elab_func, cost_func. rewrite <- (gives_length W xs sk Hx).
  destruct (match ex with Some t => coercion_cost (f_out_type f) t | None => Some 0%N end) as [c0|]; [|reflexivity].
  assert (Er : forall A (a b : A), match f_arg_types f, @None (list tt) with [TyRaw], Some _ => a | _, _ => b end = b).
  { intros A a b. destruct (f_arg_types f) as [|t ts]; [reflexivity|]. destruct t; try reflexivity. destruct ts; reflexivity. }
  replace (match f_arg_types f with [TyRaw] => _ | _ => _ end) with (match params f (List.length xs) with None => None | Some ps => match elab_args ps xs with Some (c, tes) => Some ((c0 + c)%N, tes) | None => None end end)
    by (destruct (f_arg_types f) as [|t ts]; [reflexivity|]; destruct t; try reflexivity; destruct ts; reflexivity).
  destruct (params f (List.length xs)) as [ps|] eqn:Ep; [|reflexivity].
  pose proof (elab_args_costs W ps xs sk (params_length _ _ _ Ep) Hx (Hp _ eq_refl)) as H.
  destruct (cost_args ps sk) as [c|]; [|rewrite H; reflexivity]. destruct H as [tes ->]. eexists. reflexivity.
Qed.

(** An overload that is better than all others. *)
Definition wins (fs : list func) (sk : list (ty * N)) (ex : option ty) (f : func) (c : N) : Prop :=
  cost_func f sk ex = Some c /\
  Forall (fun g => g = f \/ match cost_func g sk ex with Some d => better (c, f) (d, g) | None => True end) fs.

Lemma wins_best W fs xs sk raw ex f c : (raw = None \/ Forall (fun g => f_arg_types g <> [TyRaw]) fs) -> Forall2 (gives W) xs sk ->
  Forall (fun g => forall ps, params g (List.length xs) = Some ps -> Forall (fun p => W (fst p)) ps) fs ->
  In f fs -> wins fs sk ex f c ->
  exists tes, best (viable fs xs raw ex) = Some (c, f, tes) /\ elab_func f xs raw ex = Some (c, tes).
Proof.
  intros Hr Hx Hp Hf [Hc Hw].
  assert (Hcost : forall g, In g fs -> match cost_func g sk ex with Some c => exists tes, elab_func g xs raw ex = Some (c, tes) | None => elab_func g xs raw ex = None end).
  { intros g Hg. rewrite Forall_forall in Hp. apply (elab_func_costs W); [|exact Hx|exact (Hp g Hg)]. destruct Hr as [->|Hr]; [left; reflexivity|right].
    rewrite Forall_forall in Hr. exact (Hr g Hg). }
  pose proof (Hcost f Hf) as Hcf. rewrite Hc in Hcf. destruct Hcf as [tes Hcf]. exists tes. split; [|exact Hcf].
  assert (Hin : In (c, f, tes) (viable fs xs raw ex)) by (apply viable_in; auto).
  destruct (best (viable fs xs raw ex)) as [[[d g] tes']|] eqn:Eb.
  - pose proof (best_in _ _ Eb) as Hg. apply viable_in in Hg as [Hg Hge]. rewrite Forall_forall in Hw. destruct (Hw g Hg) as [->|Hb]; [congruence|].
    pose proof (Hcost g Hg) as Hcg. destruct (cost_func g sk ex) as [d'|]; [|congruence]. destruct Hcg as [tes'' Hcg]. rewrite Hge in Hcg. injection Hcg as <- <-.
    pose proof (best_min _ _ Eb _ Hin) as Hm. unfold entry_lt in Hm. cbn [fst] in Hm. apply betterb_better in Hb. congruence.
  - destruct (viable fs xs raw ex); [contradiction|]. cbn [best] in Eb. destruct (best l) as [y|]; [|discriminate]. destruct (betterb _ _); discriminate.
Qed.

Lemma loses_all W fs xs sk raw ex : (raw = None \/ Forall (fun g => f_arg_types g <> [TyRaw]) fs) -> Forall2 (gives W) xs sk ->
  Forall (fun g => forall ps, params g (List.length xs) = Some ps -> Forall (fun p => W (fst p)) ps) fs ->
  Forall (fun g => cost_func g sk ex = None) fs -> best (viable fs xs raw ex) = None.
Proof.
  intros Hr Hx Hp Hn. destruct (best (viable fs xs raw ex)) as [[[d g] tes']|] eqn:Eb; [|reflexivity]. exfalso.
  pose proof (best_in _ _ Eb) as Hg. apply viable_in in Hg as [Hg Hge]. rewrite Forall_forall in Hn, Hp.
  assert (Hr' : raw = None \/ f_arg_types g <> [TyRaw]) by (destruct Hr as [->|Hr]; [left; reflexivity|right; rewrite Forall_forall in Hr; exact (Hr g Hg)]).
  pose proof (elab_func_costs W g xs sk raw ex Hr' Hx (Hp g Hg)) as H. rewrite (Hn g Hg) in H. congruence.
Qed.

(** ** The table, overload by overload *)
Definition chooses (fs : list func) (ss : list ty) (o : ty) (cost : list (ty * N) -> N) (ok : list (ty * N) -> Prop) (W : ty -> Prop) : Prop :=
  exists f ps, In f fs /\ f_out_type f = o /\ params f (List.length ss) = Some ps /\
  Forall2 (fun p s => fst p = s \/ fst p = TyTokens \/ fst p = TyRaw) ps ss /\
  forall sk, map fst sk = ss -> ok sk ->
    wins fs sk None f (cost sk) /\
    forall t, W t -> match coercion_cost o t with
                     | Some c => wins fs sk (Some t) f (c + cost sk)
                     | None => Forall (fun g => cost_func g sk (Some t) = None) fs
                     end.
Definition refuses (fs : list func) (ss : list ty) : Prop :=
  forall sk ex, map fst sk = ss -> Forall (fun g => cost_func g sk ex = None) fs.

(** Outcome of the choice for one function. *)
Definition settles (name : str) (fs : list func) (r : list ty -> option ty) (W : list ty -> ty -> Prop) : Prop :=
  forall ss, match r ss with
             | Some o => chooses fs ss o (call_cost name) (fun _ => True) (W ss)
             | None => refuses fs ss
             end.
Definition any (ss : list ty) (t : ty) : Prop := True.

Ltac one_arg :=
  let a := fresh "a" in let q := fresh "q" in
  intros [|[a q] [|? ?]] Hss _; try discriminate; cbn [map fst] in Hss; injection Hss as ->.
Ltac compare :=
  repeat (first [ apply Forall_nil | apply Forall_cons ]);
  cbn -[N.add N.mul]; try (left; reflexivity); try (right; exact I); try (right; left; lia); try reflexivity.
Ltac choose f p :=
  exists f, [(p, 1%N)]; split; [cbn; tauto|split; [reflexivity|split; [reflexivity|split; [apply Forall2_cons; [cbn; tauto|apply Forall2_nil]|]]]];
  one_arg; split; [split; [cbn -[N.add N.mul]; try (f_equal; lia)|compare]|intros t Ht; destruct t; cbn [coercion_cost coercion_cost_basic ty_eqb]; try (split; [cbn -[N.add N.mul]; try (f_equal; lia)|compare]); try compare].
Ltac nothing := cbn -[N.add N.mul]; repeat match goal with |- match ?x with _ => _ end = None => destruct x end; reflexivity.
Ltac refuse :=
  intros sk ex Hss; destruct sk as [|[? ?] [|[? ?] ?]]; try discriminate; cbn [map fst] in Hss; try (injection Hss as ->);
  unfold cost_func; repeat (first [ apply Forall_nil | apply Forall_cons ]); nothing.

Lemma text_settles name k (g : str -> str) O : own_cost name TyIdent = 0%N -> own_cost name TyLitStr = 0%N -> str_eqb name (txt "concat") = false ->
  settles name (number_variants name k (snd (str_funcs O name g))) (one same_text) any.
Proof.
  intros H1 H2 Hn ss. destruct ss as [|s [|s2 ss]]; cbn [one]; [refuse| |refuse].
  destruct s; cbn [same_text]; try refuse; unfold call_cost; rewrite Hn.
  - choose (mkf name (N.succ k) ([TyIdent], TyIdent, str_func_ident O g)) TyIdent.
  - choose (mkf name k ([TyLitStr], TyLitStr, str_func_lit g)) TyLitStr.
Qed.

Lemma source_settles name k out im : own_cost name TyIdent = 5%N -> (forall s, own_cost name s = if ty_eqb s TyRaw then 0%N else 5%N) -> str_eqb name (txt "concat") = false ->
  settles name (number_variants name k [([TyRaw], out, im)]) (one (fun _ => Some out)) any.
Proof.
  intros _ H1 Hn ss. destruct ss as [|s [|s2 ss]]; cbn [one]; [refuse| |refuse]. unfold call_cost. rewrite Hn.
  exists (mkf name k ([TyRaw], out, im)), [(TyRaw, 1%N)]. split; [cbn; tauto|split; [reflexivity|split; [reflexivity|split; [apply Forall2_cons; [cbn; tauto|apply Forall2_nil]|]]]].
  one_arg. rewrite H1. split; [split|].
  - unfold cost_func. cbn. destruct s; cbn -[N.add N.mul]; f_equal; lia.
  - constructor; [left; reflexivity|constructor].
  - intros t _. unfold wins, cost_func. cbn -[coercion_cost N.add N.mul]. destruct (coercion_cost out t) as [c|] eqn:Eo.
    + split; [|constructor; [left; reflexivity|constructor]]. destruct s; cbn -[N.add N.mul]; f_equal; lia.
    + constructor; [cbn [f_out_type]; rewrite Eo; reflexivity|constructor].
Qed.

Lemma reader_settles name k out im : (forall s, own_cost name s = as_tokens s) -> str_eqb name (txt "concat") = false ->
  settles name (number_variants name k [([TyTokens], out, im)]) (one (fun _ => Some out)) any.
Proof.
  intros H1 Hn ss. destruct ss as [|s [|s2 ss]]; cbn [one]; [refuse| |refuse]. unfold call_cost. rewrite Hn.
  exists (mkf name k ([TyTokens], out, im)), [(TyTokens, 1%N)]. split; [cbn; tauto|split; [reflexivity|split; [reflexivity|split; [apply Forall2_cons; [cbn; tauto|apply Forall2_nil]|]]]].
  one_arg. rewrite H1. split; [split|].
  - unfold cost_func, as_tokens. cbn. destruct s; cbn -[N.add N.mul]; f_equal; lia.
  - constructor; [left; reflexivity|constructor].
  - intros t _. unfold wins, cost_func. cbn -[coercion_cost N.add N.mul as_tokens]. destruct (coercion_cost out t) as [c|] eqn:Eo.
    + split; [|constructor; [left; reflexivity|constructor]]. destruct s; cbn -[N.add N.mul]; f_equal; lia.
    + constructor; [cbn [f_out_type]; rewrite Eo; reflexivity|constructor].
Qed.

Definition hash_wanted (ss : list ty) (t : ty) : Prop :=
  match ss with [TyLitStr] => t <> TyIdent /\ t <> TyPath /\ t <> TyType /\ t <> TyExpr | _ => True end.
Ltac choose_at f p :=
  exists f, [(p, 1%N)]; split; [cbn; tauto|split; [reflexivity|split; [reflexivity|split; [apply Forall2_cons; [cbn; tauto|apply Forall2_nil]|]]]];
  one_arg; split; [split; [cbn -[N.add N.mul]; try (f_equal; lia)|compare]|intros t Ht; cbn [hash_wanted] in Ht; destruct t; try (exfalso; destruct Ht as (Ha & Hb & Hc & Hd); congruence); cbn [coercion_cost coercion_cost_basic ty_eqb]; try (split; [cbn -[N.add N.mul]; try (f_equal; lia)|compare]); try compare].

Lemma hash_settles O name k : (forall s, own_cost name s = match s with TyIdent | TyLitStr => 0%N | _ => as_tokens s end) -> str_eqb name (txt "concat") = false ->
  settles name (number_variants name k (hash_rows O)) (one (fun s => match s with TyLitStr => Some TyLitStr | _ => Some TyIdent end)) hash_wanted.
Proof.
  intros H1 Hn ss. destruct ss as [|s [|s2 ss]]; cbn [one]; [refuse| |refuse]. unfold call_cost. rewrite Hn. pose proof (H1 s) as H2.
  destruct s; cbn [as_tokens ty_eqb] in H2.
  - choose_at (mkf name (N.succ k) ([TyIdent], TyIdent, impl_hash_ident O)) TyIdent.
  - choose_at (mkf name (N.succ (N.succ k)) ([TyTokens], TyIdent, impl_hash_tokens O)) TyTokens.
  - choose_at (mkf name (N.succ (N.succ k)) ([TyTokens], TyIdent, impl_hash_tokens O)) TyTokens.
  - choose_at (mkf name (N.succ (N.succ k)) ([TyTokens], TyIdent, impl_hash_tokens O)) TyTokens.
  - choose_at (mkf name k ([TyLitStr], TyLitStr, impl_hash_str O)) TyLitStr.
  - choose_at (mkf name (N.succ (N.succ k)) ([TyTokens], TyIdent, impl_hash_tokens O)) TyTokens.
  - choose_at (mkf name (N.succ (N.succ k)) ([TyTokens], TyIdent, impl_hash_tokens O)) TyTokens.
  - choose_at (mkf name (N.succ (N.succ k)) ([TyTokens], TyIdent, impl_hash_tokens O)) TyTokens.
  - choose_at (mkf name (N.succ (N.succ k)) ([TyTokens], TyIdent, impl_hash_tokens O)) TyTokens.
Qed.

Lemma normalize2_settles O name k : (forall s, own_cost name s = match s with TyRaw | TyVariadic _ => 4%N | _ => 0%N end) -> str_eqb name (txt "concat") = false ->
  settles name (number_variants name k 
      [ ([TyIdent], TyIdent, impl_normalize2_ident O);
        ([TyLitStr], TyIdent, impl_normalize2_str O);
        ([TyLitInt], TyIdent, impl_normalize2_int O);
        ([TyPath], TyIdent, impl_normalize2_path O);
        ([TyType], TyIdent, impl_normalize2_type O);
        ([TyExpr], TyIdent, impl_normalize2_expr O);
        ([TyTokens], TyIdent, impl_normalize2_tokens O) ]) (one (fun _ => Some TyIdent)) any.
Proof.
  intros H1 Hn ss. destruct ss as [|s [|s2 ss]]; cbn [one]; [refuse| |refuse]. unfold call_cost. rewrite Hn. pose proof (H1 s) as H2.
  destruct s; cbn [as_tokens ty_eqb] in H2.
  - choose (mkf name k ([TyIdent], TyIdent, impl_normalize2_ident O)) TyIdent.
  - choose (mkf name (N.succ (N.succ (N.succ k))) ([TyPath], TyIdent, impl_normalize2_path O)) TyPath.
  - choose (mkf name (N.succ (N.succ (N.succ (N.succ k)))) ([TyType], TyIdent, impl_normalize2_type O)) TyType.
  - choose (mkf name (N.succ (N.succ (N.succ (N.succ (N.succ k))))) ([TyExpr], TyIdent, impl_normalize2_expr O)) TyExpr.
  - choose (mkf name (N.succ k) ([TyLitStr], TyIdent, impl_normalize2_str O)) TyLitStr.
  - choose (mkf name (N.succ (N.succ k)) ([TyLitInt], TyIdent, impl_normalize2_int O)) TyLitInt.
  - choose (mkf name (N.succ (N.succ (N.succ (N.succ (N.succ (N.succ k)))))) ([TyTokens], TyIdent, impl_normalize2_tokens O)) TyTokens.
  - choose (mkf name (N.succ (N.succ (N.succ (N.succ (N.succ (N.succ k)))))) ([TyTokens], TyIdent, impl_normalize2_tokens O)) TyTokens.
  - choose (mkf name (N.succ (N.succ (N.succ (N.succ (N.succ (N.succ k)))))) ([TyTokens], TyIdent, impl_normalize2_tokens O)) TyTokens.
Qed.

(** ** [concat] *)
Definition concat_rows (O : oracles) : list (list ty * ty * (N -> list value -> res value)) :=
  [ ([TyVariadic TyIdent], TyIdent, impl_concat_idents O);
    ([TyIdent; TyVariadic TyTokens], TyIdent, impl_concat_ident_tokens O);
    ([TyVariadic TyLitStr], TyLitStr, impl_concat_strs);
    ([TyVariadic TyLitInt], TyLitInt, impl_concat_ints O);
    ([TyVariadic TyTokens], TyTokens, impl_concat_tokens) ].
Definition plain_kind (t : ty) : Prop := t = TyIdent \/ t = TyLitStr \/ t = TyLitInt.

Lemma cost_kind t sk : plain_kind t ->
  cost_args (repeat (t, 2%N) (List.length sk)) sk = if forallb (ty_eqb t) (map fst sk) then Some (twice sk) else None.
Proof.
  intros Ht. induction sk as [|[s k] sk IH]; [reflexivity|]. cbn [List.length repeat cost_args map fst forallb twice fold_right snd]. rewrite IH.
  fold (twice sk). destruct Ht as [->|[->| ->]]; destruct s; try reflexivity; cbn [coercion_cost coercion_cost_basic ty_eqb andb]; destruct (forallb _ _); try reflexivity; f_equal; lia.
Qed.
Lemma cost_tokens sk : cost_args (repeat (TyTokens, 2%N) (List.length sk)) sk = Some (total sk).
Proof.
  induction sk as [|[s k] sk IH]; [reflexivity|]. cbn [List.length repeat cost_args total fold_right fst snd]. rewrite IH. fold (total sk).
  destruct s; cbn [coercion_cost coercion_cost_basic ty_eqb as_tokens]; unfold as_tokens; cbn [ty_eqb]; f_equal; lia.
Qed.
Lemma tokens_dearer t sk : plain_kind t -> forallb (ty_eqb t) (map fst sk) = true -> total sk = (twice sk + 8 * N.of_nat (List.length sk))%N.
Proof.
  intros Ht. induction sk as [|[s k] sk IH]; [reflexivity|]. cbn [map fst forallb]. intros H. apply andb_prop in H as [H1 H2]. specialize (IH H2).
  cbn [total twice fold_right List.length fst snd]. fold (total sk) (twice sk). apply ty_eqb_eq in H1. subst s.
  assert (as_tokens t = 4%N) as -> by (destruct Ht as [->|[->| ->]]; reflexivity). lia.
Qed.

Definition with_out (o : ty) (ex : option ty) (c : option N) : option N :=
  match match ex with Some t => coercion_cost o t | None => Some 0%N end with
  | None => None
  | Some c0 => option_map (N.add c0) c
  end.
Lemma cost_kind_row name k t im sk ex p : plain_kind t ->
  cost_func (mkf name k ([TyVariadic t], t, im)) (p :: sk) ex =
  with_out t ex (if forallb (ty_eqb t) (map fst (p :: sk)) then Some (twice (p :: sk)) else None).
Proof.
  intros Ht. rewrite <- (cost_kind t (p :: sk) Ht). unfold cost_func, with_out. cbn [mkf f_out_type fst snd].
  replace (params _ (List.length (p :: sk))) with (Some (repeat (t, 2%N) (List.length (p :: sk)))).
  - destruct (match ex with Some _ => _ | None => _ end); [|reflexivity]. destruct (cost_args _ _); reflexivity.
  - reflexivity.
Qed.
Lemma cost_tokens_row name k im sk ex p :
  cost_func (mkf name k ([TyVariadic TyTokens], TyTokens, im)) (p :: sk) ex = with_out TyTokens ex (Some (total (p :: sk))).
Proof.
  rewrite <- (cost_tokens (p :: sk)). unfold cost_func, with_out. cbn [mkf f_out_type fst snd].
  replace (params _ (List.length (p :: sk))) with (Some (repeat (TyTokens, 2%N) (List.length (p :: sk)))).
  - destruct (match ex with Some _ => _ | None => _ end); [|reflexivity]. destruct (cost_args _ _); reflexivity.
  - reflexivity.
Qed.
Lemma cost_append_row name k im sk ex s q :
  cost_func (mkf name k ([TyIdent; TyVariadic TyTokens], TyIdent, im)) ((s, q) :: sk) ex =
  with_out TyIdent ex (match sk with [] => None | _ => if ty_eqb TyIdent s then Some (q + total sk)%N else None end).
Proof.
  unfold cost_func, with_out. cbn [mkf f_out_type fst snd]. destruct (match ex with Some _ => _ | None => _ end) as [c0|]; [|reflexivity].
  destruct sk as [|p sk]; [reflexivity|].
  replace (params _ (List.length ((s, q) :: p :: sk))) with (Some ((TyIdent, 1%N) :: repeat (TyTokens, 2%N) (List.length (p :: sk)))) by reflexivity.
  cbn [cost_args]. rewrite cost_tokens. destruct s; try reflexivity. cbn [ty_eqb]. change (coercion_cost TyIdent TyIdent) with (Some 0%N). cbn [option_map]. do 2 f_equal. lia.
Qed.

Definition concat_ok (sk : list (ty * N)) : Prop :=
  match sk with
  | (s, k) :: r => forallb (ty_eqb TyIdent) (map fst sk) = true -> r = [] \/ (k <= 8 * N.of_nat (List.length r))%N
  | [] => True
  end.

Lemma kind_params name k t im n : plain_kind t ->
  params (mkf name k ([TyVariadic t], t, im)) (S n) = Some (repeat (t, 2%N) (S n)).
Proof. intros [->|[->| ->]]; reflexivity. Qed.

Lemma same_types t (ss : list ty) : forallb (ty_eqb t) ss = true -> Forall2 (fun p s => fst p = s \/ fst p = TyTokens \/ fst p = TyRaw) (repeat (t, 2%N) (List.length ss)) ss.
Proof.
  induction ss as [|s ss IH]; [constructor|]. cbn [forallb List.length repeat]. intros H. apply andb_prop in H as [H1 H2]. apply ty_eqb_eq in H1. subst s.
  constructor; [left; reflexivity|auto].
Qed.
Lemma token_types (ss : list ty) : Forall2 (fun p s => fst p = s \/ fst p = TyTokens \/ fst p = TyRaw) (repeat (TyTokens, 2%N) (List.length ss)) ss.
Proof. induction ss; cbn; constructor; auto. Qed.

Lemma other_kind t u s ss : plain_kind t -> t <> u -> forallb (ty_eqb t) (s :: ss) = true -> forallb (ty_eqb u) (s :: ss) = false.
Proof.
  intros Ht Hu H. cbn [forallb] in *. apply andb_prop in H as [H _]. apply ty_eqb_eq in H. subst s. 
  destruct (ty_eqb u t) eqn:E; [apply ty_eqb_eq in E; congruence|reflexivity].
Qed.

Definition out_cost (o : ty) (ex : option ty) : option N := match ex with Some t => coercion_cost o t | None => Some 0%N end.
Lemma tokens_out o ex : match out_cost o ex, out_cost TyTokens ex with
                        | Some c, Some d => (c <= d + 4)%N
                        | None, Some _ => False
                        | _, None => True
                        end.
Proof. destruct ex as [t|]; cbn [out_cost]; [|lia]. destruct t, o; cbn; try lia; try exact I; match goal with |- match ?x with _ => _ end => destruct x end; exact I. Qed.

Lemma concat_settles O name k ss : call_cost name = concat_cost ->
  match concat_type ss with
  | Some o => chooses (number_variants name k (concat_rows O)) ss o (call_cost name) concat_ok (fun _ => True)
  | None => refuses (number_variants name k (concat_rows O)) ss
  end.
Proof.
  intros ->. destruct ss as [|s ss].
  { intros sk ex H. destruct sk; [|discriminate]. unfold cost_func. repeat (first [ apply Forall_nil | apply Forall_cons ]); nothing. }
  set (fA := mkf name k ([TyVariadic TyIdent], TyIdent, impl_concat_idents O)).
  set (fB := mkf name (N.succ k) ([TyIdent; TyVariadic TyTokens], TyIdent, impl_concat_ident_tokens O)).
  set (fC := mkf name (N.succ (N.succ k)) ([TyVariadic TyLitStr], TyLitStr, impl_concat_strs)).
  set (fD := mkf name (N.succ (N.succ (N.succ k))) ([TyVariadic TyLitInt], TyLitInt, impl_concat_ints O)).
  set (fE := mkf name (N.succ (N.succ (N.succ (N.succ k)))) ([TyVariadic TyTokens], TyTokens, impl_concat_tokens)).
  change (number_variants name k (concat_rows O)) with [fA; fB; fC; fD; fE].
  assert (HA : forall p sk ex, cost_func fA (p :: sk) ex = with_out TyIdent ex (if forallb (ty_eqb TyIdent) (map fst (p :: sk)) then Some (twice (p :: sk)) else None))
    by (intros; apply cost_kind_row; left; reflexivity).
  assert (HB : forall s q sk ex, cost_func fB ((s, q) :: sk) ex = with_out TyIdent ex (match sk with [] => None | _ => if ty_eqb TyIdent s then Some (q + total sk)%N else None end))
    by (intros; apply cost_append_row).
  assert (HC : forall p sk ex, cost_func fC (p :: sk) ex = with_out TyLitStr ex (if forallb (ty_eqb TyLitStr) (map fst (p :: sk)) then Some (twice (p :: sk)) else None))
    by (intros; apply cost_kind_row; right; left; reflexivity).
  assert (HD : forall p sk ex, cost_func fD (p :: sk) ex = with_out TyLitInt ex (if forallb (ty_eqb TyLitInt) (map fst (p :: sk)) then Some (twice (p :: sk)) else None))
    by (intros; apply cost_kind_row; right; right; reflexivity).
  assert (HE : forall p sk ex, cost_func fE (p :: sk) ex = with_out TyTokens ex (Some (total (p :: sk)))) by (intros; apply cost_tokens_row).
  assert (VA : is_variadic fA = true /\ num_args fA = 1) by (split; reflexivity). assert (VB : is_variadic fB = true /\ num_args fB = 2) by (split; reflexivity).
  assert (Hgo : forall o f sk, (forall ex, match out_cost o ex with Some c => wins [fA; fB; fC; fD; fE] sk ex f (c + concat_cost sk) | None => Forall (fun g => cost_func g sk ex = None) [fA; fB; fC; fD; fE] end) ->
    wins [fA; fB; fC; fD; fE] sk None f (concat_cost sk) /\
    forall t, True -> match coercion_cost o t with
                     | Some c => wins [fA; fB; fC; fD; fE] sk (Some t) f (c + concat_cost sk)
                     | None => Forall (fun g => cost_func g sk (Some t) = None) [fA; fB; fC; fD; fE]
                     end).
  { intros o f sk H. split; [exact (H None)|]. intros t _. exact (H (Some t)). }
  unfold concat_type.
  destruct (forallb (ty_eqb TyIdent) (s :: ss)) eqn:Ei; [|destruct (forallb (ty_eqb TyLitStr) (s :: ss)) eqn:Es; [|destruct (forallb (ty_eqb TyLitInt) (s :: ss)) eqn:En; [|destruct (ty_eqb TyIdent s) eqn:E1]]].
  - exists fA, (repeat (TyIdent, 2%N) (List.length (s :: ss))). split; [cbn; tauto|split; [reflexivity|split; [apply kind_params; left; reflexivity|split; [apply same_types; exact Ei|]]]].
    intros [|[s' q] sk] Hss Hok; [discriminate|]. injection Hss as -> Hss. unfold concat_ok in Hok. cbn [map fst] in Hok. rewrite Hss in Hok. specialize (Hok Ei).
    assert (Es : forallb (ty_eqb TyLitStr) (s :: ss) = false) by (apply (other_kind TyIdent); [left; reflexivity|discriminate|exact Ei]).
    assert (En : forallb (ty_eqb TyLitInt) (s :: ss) = false) by (apply (other_kind TyIdent); [left; reflexivity|discriminate|exact Ei]).
    assert (E1 : ty_eqb TyIdent s = true) by (cbn in Ei; apply andb_prop in Ei as [Ei _]; exact Ei).
    assert (Hd : total ((s, q) :: sk) = (twice ((s, q) :: sk) + 8 * N.of_nat (List.length ((s, q) :: sk)))%N) by (apply (tokens_dearer TyIdent); [left; reflexivity|cbn [map fst]; rewrite Hss; exact Ei]).
    assert (Hd' : total sk = (twice sk + 8 * N.of_nat (List.length sk))%N) by (apply (tokens_dearer TyIdent); [left; reflexivity|cbn in Ei; apply andb_prop in Ei as [_ Ei]; rewrite Hss; exact Ei]).
    assert (Ht : twice ((s, q) :: sk) = (2 * q + twice sk)%N) by reflexivity.
    apply Hgo. intros ex. unfold concat_cost. cbn [map fst]. rewrite Hss, Ei. cbn [orb]. pose proof (tokens_out TyIdent ex) as Hto.
    destruct (out_cost TyIdent ex) as [c|] eqn:Ec.
    + split; [rewrite HA; unfold with_out; fold (out_cost TyIdent ex); rewrite Ec; cbn [map fst]; rewrite Hss, Ei; reflexivity|].
      repeat (first [ apply Forall_nil | apply Forall_cons ]); [left; reflexivity|right..]; rewrite ?HB, ?HC, ?HD, ?HE; cbn [map fst]; rewrite ?Hss, ?Es, ?En, ?E1; unfold with_out.
      * fold (out_cost TyIdent ex). rewrite Ec. destruct sk as [|p sk]; [exact I|]. cbn [option_map]. destruct Hok as [Hok|Hok]; [discriminate|].
        unfold better. rewrite (proj1 VA), (proj1 VB), (proj2 VA), (proj2 VB).
        destruct (N.eq_dec (c + twice ((s, q) :: p :: sk)) (c + (q + total (p :: sk)))) as [He|He]; [right; split; [exact He|right; split; [reflexivity|left; lia]]|left; lia].
      * destruct (match ex with Some _ => _ | None => _ end); exact I.
      * destruct (match ex with Some _ => _ | None => _ end); exact I.
      * fold (out_cost TyTokens ex). destruct (out_cost TyTokens ex) as [d|]; [|exact I]. cbn [option_map]. left. rewrite Hd. cbn [List.length]. lia.
    + destruct (out_cost TyTokens ex) as [d|] eqn:Ed; [contradiction|].
      repeat (first [ apply Forall_nil | apply Forall_cons ]); rewrite ?HA, ?HB, ?HC, ?HD, ?HE; cbn [map fst]; rewrite ?Hss, ?Ei, ?Es, ?En, ?E1; unfold with_out;
        try (fold (out_cost TyIdent ex); rewrite Ec; reflexivity); try (fold (out_cost TyTokens ex); rewrite Ed; reflexivity);
        destruct (match ex with Some _ => _ | None => _ end); reflexivity.
  - exists fC, (repeat (TyLitStr, 2%N) (List.length (s :: ss))). split; [cbn; tauto|split; [reflexivity|split; [apply kind_params; right; left; reflexivity|split; [apply same_types; exact Es|]]]].
    intros [|[s' q] sk] Hss Hok; [discriminate|]. injection Hss as -> Hss. clear Hok.
    assert (En : forallb (ty_eqb TyLitInt) (s :: ss) = false) by (apply (other_kind TyLitStr); [right; left; reflexivity|discriminate|exact Es]).
    assert (E1 : ty_eqb TyIdent s = false) by (cbn [forallb] in Es; apply andb_prop in Es as [E1 _]; apply ty_eqb_eq in E1; subst s; reflexivity).
    assert (Hd : total ((s, q) :: sk) = (twice ((s, q) :: sk) + 8 * N.of_nat (List.length ((s, q) :: sk)))%N) by (apply (tokens_dearer TyLitStr); [right; left; reflexivity|cbn [map fst]; rewrite Hss; exact Es]).
    apply Hgo. intros ex. unfold concat_cost. cbn [map fst]. rewrite Hss, Ei, Es. cbn [orb]. pose proof (tokens_out TyLitStr ex) as Hto.
    destruct (out_cost TyLitStr ex) as [c|] eqn:Ec.
    + split; [rewrite HC; unfold with_out; fold (out_cost TyLitStr ex); rewrite Ec; cbn [map fst]; rewrite Hss, Es; reflexivity|].
      repeat (first [ apply Forall_nil | apply Forall_cons ]); [right|right|left; reflexivity|right..]; rewrite ?HA, ?HB, ?HD, ?HE; cbn [map fst]; rewrite ?Hss, ?Ei, ?En, ?E1; unfold with_out.
      * destruct (match ex with Some _ => _ | None => _ end); exact I.
      * destruct (match ex with Some _ => _ | None => _ end); [destruct sk; exact I|exact I].
      * destruct (match ex with Some _ => _ | None => _ end); exact I.
      * fold (out_cost TyTokens ex). destruct (out_cost TyTokens ex) as [d|]; [|exact I]. cbn [option_map]. left. rewrite Hd. cbn [List.length]. lia.
    + destruct (out_cost TyTokens ex) as [d|] eqn:Ed; [contradiction|].
      repeat (first [ apply Forall_nil | apply Forall_cons ]); rewrite ?HA, ?HB, ?HC, ?HD, ?HE; cbn [map fst]; rewrite ?Hss, ?Ei, ?Es, ?En, ?E1; unfold with_out;
        try (fold (out_cost TyLitStr ex); rewrite Ec; reflexivity); try (fold (out_cost TyTokens ex); rewrite Ed; reflexivity);
        destruct (match ex with Some _ => _ | None => _ end); try reflexivity; destruct sk; reflexivity.
  - exists fD, (repeat (TyLitInt, 2%N) (List.length (s :: ss))). split; [cbn; tauto|split; [reflexivity|split; [apply kind_params; right; right; reflexivity|split; [apply same_types; exact En|]]]].
    intros [|[s' q] sk] Hss Hok; [discriminate|]. injection Hss as -> Hss. clear Hok.
    assert (E1 : ty_eqb TyIdent s = false) by (cbn [forallb] in En; apply andb_prop in En as [E1 _]; apply ty_eqb_eq in E1; subst s; reflexivity).
    assert (Hd : total ((s, q) :: sk) = (twice ((s, q) :: sk) + 8 * N.of_nat (List.length ((s, q) :: sk)))%N) by (apply (tokens_dearer TyLitInt); [right; right; reflexivity|cbn [map fst]; rewrite Hss; exact En]).
    apply Hgo. intros ex. unfold concat_cost. cbn [map fst]. rewrite Hss, Ei, Es, En. cbn [orb]. pose proof (tokens_out TyLitInt ex) as Hto.
    destruct (out_cost TyLitInt ex) as [c|] eqn:Ec.
    + split; [rewrite HD; unfold with_out; fold (out_cost TyLitInt ex); rewrite Ec; cbn [map fst]; rewrite Hss, En; reflexivity|].
      repeat (first [ apply Forall_nil | apply Forall_cons ]); [right|right|right|left; reflexivity|right]; rewrite ?HA, ?HB, ?HC, ?HE; cbn [map fst]; rewrite ?Hss, ?Ei, ?Es, ?E1; unfold with_out.
      * destruct (match ex with Some _ => _ | None => _ end); exact I.
      * destruct (match ex with Some _ => _ | None => _ end); [destruct sk; exact I|exact I].
      * destruct (match ex with Some _ => _ | None => _ end); exact I.
      * fold (out_cost TyTokens ex). destruct (out_cost TyTokens ex) as [d|]; [|exact I]. cbn [option_map]. left. rewrite Hd. cbn [List.length]. lia.
    + destruct (out_cost TyTokens ex) as [d|] eqn:Ed; [contradiction|].
      repeat (first [ apply Forall_nil | apply Forall_cons ]); rewrite ?HA, ?HB, ?HC, ?HD, ?HE; cbn [map fst]; rewrite ?Hss, ?Ei, ?Es, ?En, ?E1; unfold with_out;
        try (fold (out_cost TyLitInt ex); rewrite Ec; reflexivity); try (fold (out_cost TyTokens ex); rewrite Ed; reflexivity);
        destruct (match ex with Some _ => _ | None => _ end); try reflexivity; destruct sk; reflexivity.
  - apply ty_eqb_eq in E1. subst s. destruct ss as [|s2 ss]; [discriminate|].
    exists fB, ((TyIdent, 1%N) :: repeat (TyTokens, 2%N) (List.length (s2 :: ss))). split; [cbn; tauto|split; [reflexivity|split; [reflexivity|split; [constructor; [left; reflexivity|apply token_types]|]]]].
    intros [|[s' q] [|p sk]] Hss Hok; [discriminate|discriminate|]. injection Hss as -> Hp Hss. clear Hok.
    assert (Hd : total ((TyIdent, q) :: p :: sk) = (2 * (4 + q) + total (p :: sk))%N) by reflexivity.
    apply Hgo. intros ex. unfold concat_cost. cbn [map fst]. rewrite Hp, Hss, Ei, Es, En. cbn [orb ty_eqb]. pose proof (tokens_out TyIdent ex) as Hto.
    destruct (out_cost TyIdent ex) as [c|] eqn:Ec.
    + split; [rewrite HB; unfold with_out; fold (out_cost TyIdent ex); rewrite Ec; reflexivity|].
      repeat (first [ apply Forall_nil | apply Forall_cons ]); [right|left; reflexivity|right..]; rewrite ?HA, ?HC, ?HD, ?HE; cbn [map fst]; rewrite ?Hp, ?Hss, ?Ei, ?Es, ?En; unfold with_out.
      * destruct (match ex with Some _ => _ | None => _ end); exact I.
      * destruct (match ex with Some _ => _ | None => _ end); exact I.
      * destruct (match ex with Some _ => _ | None => _ end); exact I.
      * fold (out_cost TyTokens ex). destruct (out_cost TyTokens ex) as [d|]; [|exact I]. cbn [option_map]. left. rewrite Hd. lia.
    + destruct (out_cost TyTokens ex) as [d|] eqn:Ed; [contradiction|].
      repeat (first [ apply Forall_nil | apply Forall_cons ]); rewrite ?HA, ?HB, ?HC, ?HD, ?HE; cbn [map fst]; rewrite ?Hp, ?Hss, ?Ei, ?Es, ?En; unfold with_out;
        try (fold (out_cost TyIdent ex); rewrite Ec; reflexivity); try (fold (out_cost TyTokens ex); rewrite Ed; reflexivity);
        destruct (match ex with Some _ => _ | None => _ end); reflexivity.
  - exists fE, (repeat (TyTokens, 2%N) (List.length (s :: ss))). split; [cbn; tauto|split; [reflexivity|split; [reflexivity|split; [apply token_types|]]]].
    intros [|[s' q] sk] Hss Hok; [discriminate|]. injection Hss as -> Hss. clear Hok.
    apply Hgo. intros ex. unfold concat_cost. cbn [map fst]. rewrite Hss, Ei, Es, En, E1. cbn [orb].
    destruct (out_cost TyTokens ex) as [c|] eqn:Ec.
    + split; [rewrite HE; unfold with_out; fold (out_cost TyTokens ex); rewrite Ec; reflexivity|].
      repeat (first [ apply Forall_nil | apply Forall_cons ]); [right|right|right|right|left; reflexivity]; rewrite ?HA, ?HB, ?HC, ?HD; cbn [map fst]; rewrite ?Hss, ?Ei, ?Es, ?En, ?E1; unfold with_out;
        destruct (match ex with Some _ => _ | None => _ end); try exact I; destruct sk; exact I.
    + repeat (first [ apply Forall_nil | apply Forall_cons ]); rewrite ?HA, ?HB, ?HC, ?HD, ?HE; cbn [map fst]; rewrite ?Hss, ?Ei, ?Es, ?En, ?E1; unfold with_out;
        try (fold (out_cost TyTokens ex); rewrite Ec; reflexivity);
        destruct (match ex with Some _ => _ | None => _ end); try reflexivity; destruct sk; reflexivity.
Qed.

(** ** The whole table *)
Definition ok_for (name : str) (sk : list (ty * N)) : Prop := if str_eqb name (txt "concat") then concat_ok sk else True.
Definition wanted_of (name : str) (ss : list ty) (t : ty) : Prop := if str_eqb name (txt "hash") then hash_wanted ss t else True.
Definition source_function (name : str) : bool := str_eqb name (txt "raw") || str_eqb name (txt "normalize").

Lemma chooses_weaken fs ss o cost (ok ok' : list (ty * N) -> Prop) (W W' : ty -> Prop) : (forall sk, ok' sk -> ok sk) -> (forall t, W' t -> W t) ->
  chooses fs ss o cost ok W -> chooses fs ss o cost ok' W'.
Proof.
  intros H1 H2 (f & ps & Hf & Ho & Hp & Hs & H). exists f, ps. split; [exact Hf|split; [exact Ho|split; [exact Hp|split; [exact Hs|]]]].
  intros sk Hsk Hok. destruct (H sk Hsk (H1 _ Hok)) as [Ha Hb]. split; [exact Ha|]. intros t Ht. exact (Hb t (H2 t Ht)).
Qed.

Definition choice (name : str) (fs : list func) (r : list ty -> option ty) : Prop :=
  (forall ss, match r ss with
              | Some o => chooses fs ss o (call_cost name) (ok_for name) (wanted_of name ss)
              | None => refuses fs ss
              end) /\
  (source_function name = false -> Forall (fun f => f_arg_types f <> [TyRaw]) fs) /\
  (source_function name = true -> exists f, fs = [f] /\ f_arg_types f = [TyRaw] /\ f_out_type f = if str_eqb name (txt "raw") then TyTokens else TyIdent) /\
  (reader name = true -> Forall (fun f => f_arg_types f = [TyTokens]) fs).

Lemma settles_choice name fs r W : settles name fs r W -> (forall ss t, wanted_of name ss t -> W ss t) ->
  forall ss, match r ss with
             | Some o => chooses fs ss o (call_cost name) (ok_for name) (wanted_of name ss)
             | None => refuses fs ss
             end.
Proof.
  intros H HW ss. specialize (H ss). destruct (r ss) as [o|]; [|exact H]. eapply chooses_weaken; [| |exact H]; [intros; exact I|apply HW].
Qed.

Section Table.
Context (O : oracles) (seed first : N).
Let env := new_initialized O seed first.

Lemma table_choice name : match assoc_str name result_types with
                          | None => get_func_variants env name = None
                          | Some r => exists fs, get_func_variants env name = Some fs /\ choice name fs r
                          end.
Proof.
  destruct (assoc_str name result_types) as [r|] eqn:E.
  - unfold result_types in E. cbn [assoc_str] in E.
    repeat match type of E with
      | (if str_eqb name ?x then _ else _) = _ => destruct (str_eqb name x) eqn:?Hx; [apply str_eqb_eq in Hx; subst name; injection E as <-|clear Hx]
      end.
    18: discriminate.
    all: eexists; (split; [reflexivity|]); split; [|split; [intros Hs; try discriminate Hs; repeat (first [apply Forall_nil | apply Forall_cons; [discriminate|]])|split; [intros Hs; try discriminate Hs; eexists; repeat split|intros Hs; try discriminate Hs; repeat (first [apply Forall_nil | apply Forall_cons; [reflexivity|]])]]].
    all: try (intros ss; eapply settles_choice; [eapply text_settles; reflexivity|intros; exact I]).
    all: try (intros ss; eapply settles_choice; [eapply source_settles; try reflexivity; intros []; reflexivity|intros; exact I]).
    all: try (intros ss; eapply settles_choice; [eapply reader_settles; try reflexivity; intros []; reflexivity|intros; exact I]).
    + intros ss; eapply settles_choice; [eapply normalize2_settles; try reflexivity; intros []; reflexivity|intros; exact I].
    + intros ss; eapply settles_choice; [eapply hash_settles; try reflexivity; intros []; reflexivity|intros ss' t H; exact H].
    + intros ss. assert (Hcc : call_cost (txt "concat") = concat_cost) by reflexivity.
      match goal with |- context [refuses (?f :: _) ss] => pose proof (concat_settles O (txt "concat") (f_id f) ss Hcc) as H
                    | |- context [refuses (number_variants _ ?k _) ss] => pose proof (concat_settles O (txt "concat") k ss Hcc) as H end.
      destruct (concat_type ss); [|exact H]. eapply chooses_weaken; [| |exact H]; [intros sk Hsk; exact Hsk|intros; exact I].
  - unfold result_types in E. cbn [assoc_str] in E. unfold get_func_variants, env, new_initialized. cbn [e_funcs number_rows table assoc_str str_funcs].
    repeat match type of E with
      | (if str_eqb name ?x then _ else _) = _ => destruct (str_eqb name x) eqn:?Hx; [discriminate|]
      end. reflexivity.
Qed.
End Table.
