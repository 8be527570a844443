(** Proofs: the expressions of a parsed input are no larger than the tokens they are parsed from. *)
From Coq Require Import String.
From Verif Require Import Base BaseFacts Token Types Values Ast Item Interpreter Parse Macro SpecParse SpecSize ParseProofs MacroProofs.
Open Scope list_scope.

Lemma sum_app (a b : list N) : fold_right N.add 0%N (a ++ b) = (fold_right N.add 0 a + fold_right N.add 0 b)%N.
Proof. induction a as [|x a IH]; [reflexivity|]. cbn [app fold_right]. rewrite IH. lia. Qed.
Lemma sum_in (x : N) l : In x l -> (x <= fold_right N.add 0 l)%N.
Proof. induction l as [|y l IH]; [contradiction|]. cbn [fold_right]. intros [->|H]; [lia|]. specialize (IH H). lia. Qed.

(** ** Heft in terms of size *)
Lemma heft_size w m t : (1 <= m)%N -> (heft w m t <= w * tokens_in t * m ^ nesting t)%N.
Proof.
  intros Hm. assert (Hpow : forall k, (1 <= m ^ k)%N) by (intros k; pose proof (N.pow_nonzero m k); lia).
  assert (Leaf : (w <= w * 1 * m ^ 0)%N) by (rewrite N.pow_0_r; lia).
  induction t as [x|c j|l|d ts IH] using tt_ind'; cbn [heft tokens_in nesting]; try exact Leaf.
  assert (Hs : (fold_right N.add 0 (map (heft w m) ts) <= w * fold_right N.add 0 (map tokens_in ts) * m ^ fold_right N.max 0 (map nesting ts))%N).
  { clear Leaf d. induction IH as [|t ts Ht _ IHts]; cbn [map fold_right]; [apply N.le_0_l|].
    set (a := nesting t) in *. set (b := fold_right N.max 0%N (map nesting ts)) in *.
    assert (Ha : (m ^ a <= m ^ N.max a b)%N) by (apply N.pow_le_mono_r; [clear - Hm; lia|apply N.le_max_l]).
    assert (Hb : (m ^ b <= m ^ N.max a b)%N) by (apply N.pow_le_mono_r; [clear - Hm; lia|apply N.le_max_r]).
    eapply N.le_trans; [apply N.add_le_mono; [exact Ht|exact IHts]|].
    rewrite N.mul_add_distr_l, N.mul_add_distr_r. apply N.add_le_mono; apply N.mul_le_mono_l; assumption. }
  set (n := fold_right N.add 0%N (map tokens_in ts)) in *. set (k := fold_right N.max 0%N (map nesting ts)) in *.
  assert (G : (w + m * fold_right N.add 0 (map (heft w m) ts) <= w * (1 + n) * m ^ (1 + k))%N).
  { replace (1 + k)%N with (N.succ k) by (symmetry; apply N.add_1_l). rewrite N.pow_succ_r by apply N.le_0_l. rewrite N.mul_add_distr_l, N.mul_add_distr_r.
    apply N.add_le_mono; [specialize (Hpow k); clear - Hpow Hm; generalize dependent (m ^ k)%N; intros q Hq; assert (1 <= m * q)%N by nia; nia|]. replace (w * n * (m * m ^ k))%N with (m * (w * n * m ^ k))%N by (clear; generalize (m ^ k)%N; intros q; nia).
    apply N.mul_le_mono_l. exact Hs. }
  destruct d; try exact G. exact Leaf.
Qed.
Lemma heft_of_size w m ts : (1 <= m)%N -> (heft_of w m ts <= w * tokens_of ts * m ^ nesting_of ts)%N.
Proof.
  intros Hm. unfold heft_of, tokens_of, nesting_of. induction ts as [|t ts IH]; cbn [map fold_right]; [apply N.le_0_l|].
  pose proof (heft_size w m t Hm) as Ht. set (a := nesting t) in *. set (b := fold_right N.max 0%N (map nesting ts)) in *.
  assert (Ha : (m ^ a <= m ^ N.max a b)%N) by (apply N.pow_le_mono_r; [clear - Hm; lia|apply N.le_max_l]).
  assert (Hb : (m ^ b <= m ^ N.max a b)%N) by (apply N.pow_le_mono_r; [clear - Hm; lia|apply N.le_max_r]).
  eapply N.le_trans; [apply N.add_le_mono; [exact Ht|exact IH]|].
  rewrite N.mul_add_distr_l, N.mul_add_distr_r. apply N.add_le_mono; apply N.mul_le_mono_l; assumption.
Qed.

(** ** The expressions of an input *)
Section Size.
Context (P : parsers) (hf : str -> bool) (w m : N) (size : expr -> N).
Hypothesis Hm : (1 <= m)%N.
Hypothesis Hvalue : forall id v, (size (EValue id v) <= w)%N.
Hypothesis Hcall : forall id x args raw, (size (ECall id x args raw) <= w + m * fold_right N.add 0 (map size args))%N.

Definition sizes (es : list expr) : N := fold_right N.add 0%N (map size es).
Lemma sizes_app a b : sizes (a ++ b) = (sizes a + sizes b)%N.
Proof. unfold sizes. rewrite map_app. apply sum_app. Qed.
Lemma heft_app a b : heft_of w m (a ++ b) = (heft_of w m a + heft_of w m b)%N.
Proof. unfold heft_of. rewrite map_app. apply sum_app. Qed.
Lemma heft_cons t ts : heft_of w m (t :: ts) = (heft w m t + heft_of w m ts)%N.
Proof. reflexivity. Qed.
Lemma heft_least t : (w <= heft w m t)%N.
Proof. destruct t as [x|c j|l|[| | |] ts]; cbn [heft]; lia. Qed.
Lemma heft_first k ts : heft_of w m ts = (heft_of w m (firstn k ts) + heft_of w m (skipn k ts))%N.
Proof. rewrite <- heft_app, firstn_skipn. reflexivity. Qed.

Definition light (a : atok) : Prop :=
  (forall n n' es, a_args a n = (n', es) -> (w + m * sizes es <= heft w m (a_tok a))%N) /\
  (forall n n' o, a_tuple a n = (n', o) ->
     (sizes (match o with Some (t, _) => flat_map tuple_exprs t | None => [] end) <= heft w m (a_tok a))%N).

(** What an item of [k] tokens at the head of [l] may weigh. *)
Definition fits (l : list atok) (k : nat) (s : N) : Prop := (s <= N.max w (heft_of w m (firstn k (toks l))))%N.

Lemma call_light n l n' e k : Forall light l -> parse_call P hf n l = Some (n', (e, k)) -> fits l k (size e).
Proof.
  intros Hg H. unfold parse_call in H.
  destruct l as [|[[x|c j|lt|d ts] f1 f2 f3] [|[[y|c' j'|lt'|[| | |] inner] g1 g2 g3] l]]; try discriminate H.
  destruct (ident_allowed P x && hf x); [|discriminate H].
  cbn [a_args] in H. destruct (g1 n) as [n1 args] eqn:Ea. injection H as <- <- <-.
  inversion Hg as [|? ? _ Hg1]; subst. inversion Hg1 as [|? ? (Hga & _) _]; subst. specialize (Hga _ _ _ Ea).
  unfold fits. cbn [toks map a_tok firstn]. rewrite !heft_cons. cbn [a_tok] in Hga.
  pose proof (Hcall (N.succ n1) x args (Some (n1, inner))) as Hc. fold (sizes args) in Hc. lia.
Qed.

Lemma value_small term n ts n' e k u : parse_value P term n ts = (n', (e, k, u)) -> (size e <= w)%N.
Proof. intros H. apply value_drawn in H as (id & v & -> & _). apply Hvalue. Qed.

Lemma expr_light n l n' e k u : Forall light l -> parse_expr P hf n l = (n', (e, k, u)) -> fits l k (size e).
Proof.
  intros Hg H. unfold parse_expr in H. destruct (parse_call P hf n l) as [[n1 [e1 k1]]|] eqn:E.
  - injection H as <- <- <- <-. eapply call_light; eassumption.
  - apply value_small in H. unfold fits. lia.
Qed.

Section Terminated.
Context {A : Type} (item : N -> list atok -> N * option (A * nat)) (exprs : A -> list expr).
Hypothesis Hitem : forall n l n' a k, Forall light l -> item n l = (n', Some (a, k)) -> fits l k (sizes (exprs a)).
Lemma terminated_light l : Forall light l -> forall skip n n' as_, parse_terminated item l skip n = (n', Some as_) ->
  (sizes (flat_map exprs as_) <= heft_of w m (skipn (match skip with Some k => k | None => 0 end) (toks l)))%N.
Proof.
  induction 1 as [|t r Ht Hr IH]; intros skip n n' as_ H; cbn [parse_terminated] in H.
  - injection H as _ <-. cbn. lia.
  - cbn [toks map]. fold (toks r). destruct skip as [[|k]|].
    + destruct (is_comma (a_tok t)); [|discriminate H]. apply IH in H. cbn [skipn] in H |- *. rewrite heft_cons. lia.
    + apply IH in H. exact H.
    + destruct (item n (t :: r)) as [n1 [[a k]|]] eqn:E; [|discriminate H].
      pose proof (Hitem _ _ _ _ _ (Forall_cons _ Ht Hr) E) as Ha. unfold fits in Ha. cbn [toks map] in Ha. fold (toks r) in Ha.
      cbn [skipn]. pose proof (heft_least (a_tok t)) as Hl. destruct k as [|k].
      * cbn [firstn] in Ha. cbn [heft_of map fold_right] in Ha. destruct (is_comma (a_tok t)); [|discriminate H].
        destruct (parse_terminated item r None n1) as [n2 rest] eqn:E2. injection H as _ H. destruct rest as [rest|]; [|discriminate H].
        injection H as <-. apply IH in E2. cbn [skipn] in E2. cbn [flat_map]. rewrite sizes_app, heft_cons. unfold heft_of in Ha. cbn in Ha. lia.
      * destruct (parse_terminated item r (Some k) n1) as [n2 rest] eqn:E2. injection H as _ H. destruct rest as [rest|]; [|discriminate H].
        injection H as <-. apply IH in E2. cbn [flat_map]. rewrite sizes_app, heft_cons.
        cbn [firstn] in Ha. rewrite heft_cons in Ha. rewrite (heft_first k (toks r)). lia.
Qed.
End Terminated.

Lemma light_auntil term l : Forall light l -> Forall light (auntil term l).
Proof. induction 1 as [|t r Ht Hr IH]; [constructor|]. cbn. destruct (term (a_tok t)); constructor; auto. Qed.
Lemma auntil_first term l : firstn (List.length (auntil term l)) (toks l) = toks (auntil term l).
Proof. induction l as [|t r IH]; [reflexivity|]. cbn. destruct (term (a_tok t)); [reflexivity|]. cbn. unfold toks in IH. rewrite IH. reflexivity. Qed.

Lemma args_light l n n' es : Forall light l -> parse_args P hf l n = (n', es) -> (sizes es <= heft_of w m (toks l))%N.
Proof.
  intros Hg H. unfold parse_args in H.
  destruct (parse_terminated (parse_arg P hf) l None n) as [n1 [as_|]] eqn:E; injection H as _ <-; [|cbn; lia].
  apply (terminated_light _ (fun e => [e])) in E; [|clear E|exact Hg].
  - replace (flat_map (fun e : expr => [e]) as_) with as_ in E; [exact E|].
    clear. induction as_ as [|a l IH]; [reflexivity|]. cbn. rewrite <- IH. reflexivity.
  - intros m' l' m'' a k Hl Hi. unfold parse_arg in Hi.
    destruct (parse_expr P hf m' (auntil is_comma l')) as [m1 [[e k'] u]] eqn:Ee.
    pose proof (expr_light _ _ _ _ _ _ (light_auntil is_comma l' Hl) Ee) as He.
    destruct (skipn k' (auntil is_comma l')); [destruct u|]; try discriminate Hi. injection Hi as _ <- <-.
    unfold fits in He |- *. rewrite auntil_first. unfold sizes. cbn [map fold_right].
    pose proof (heft_first k' (toks (auntil is_comma l'))). lia.
Qed.

Lemma tuple_light l n n' o : Forall light l -> parse_tuple P hf l n = (n', o) ->
  (sizes (match o with Some (t, _) => flat_map tuple_exprs t | None => [] end) <= heft_of w m (toks l))%N.
Proof.
  intros Hg H. unfold parse_tuple in H.
  destruct (parse_terminated (parse_tuple_value P hf) l None n) as [n1 o1] eqn:E. injection H as _ <-.
  destruct o1 as [as_|]; cbn [option_map any_unexpected]; [|cbn; lia].
  apply (terminated_light _ (fun p : tuple_value expr * bool => tuple_exprs (fst p))) in E; [|clear E|exact Hg].
  - replace (flat_map tuple_exprs (map fst as_)) with (flat_map (fun p : tuple_value expr * bool => tuple_exprs (fst p)) as_); [exact E|].
    clear. induction as_ as [|a l IH]; [reflexivity|]. cbn. rewrite <- IH. reflexivity.
  - intros m' l' m'' a k Hl Hi. unfold parse_tuple_value in Hi.
    assert (Ex : match parse_expr P hf m' l' with (n', (e, k, u)) => (n', Some (TVValue e, u, k)) end = (m'', Some (a, k)) ->
       fits l' k (sizes (tuple_exprs (fst a)))).
    { destruct (parse_expr P hf m' l') as [m1 [[e k1] u]] eqn:Ee. intros H. injection H as _ <- <-. cbn [fst tuple_exprs]. unfold sizes. cbn [map fold_right].
      rewrite N.add_0_r. eapply expr_light; eassumption. }
    destruct l' as [|[[x|c j|lt|[| | |] inner] f1 f2 f3] l']; try (exact (Ex Hi)).
    inversion Hl as [|? ? (_ & Ht) _]; subst. cbn [a_tuple] in *. destruct (f2 m') as [m1 [[t u]|]] eqn:Et; [|discriminate Hi].
    injection Hi as _ <- <-. specialize (Ht _ _ _ Et). cbn [fst tuple_exprs]. unfold fits. cbn [toks map a_tok firstn]. rewrite heft_cons.
    cbn [a_tok] in Ht. lia.
Qed.

Lemma toks_ann ts : toks (map (ann P hf) ts) = ts.
Proof. induction ts as [|t ts IH]; [reflexivity|]. cbn [map toks]. f_equal; [|exact IH]. destruct t as [x|c j|l|[| | |] us]; reflexivity. Qed.

Lemma ann_light t : light (ann P hf t).
Proof.
  assert (Triv : forall t, (forall ts, t = TGroup Paren ts -> False) -> light {| a_tok := t; a_args := fun n => (n, []); a_tuple := fun n => (n, None); a_pattern := None |}).
  { clear t. intros t _. split; cbn; intros n n' o H; injection H as _ <-; cbn; [pose proof (heft_least t); lia|lia]. }
  induction t as [x|c j|l|d ts IH] using tt_ind'; cbn [ann]; try (apply Triv; discriminate).
  destruct d; try (apply Triv; discriminate).
  assert (Hg : Forall light (map (ann P hf) ts)) by (clear - IH; induction IH; constructor; auto).
  pose proof (toks_ann ts) as Et.
  split; cbn [a_args a_tuple a_tok heft]; fold (heft_of w m ts); intros n n' o H.
  - apply args_light in H; [|exact Hg]. rewrite Et in H. nia.
  - apply tuple_light in H; [|exact Hg]. rewrite Et in H. nia.
Qed.
Lemma anns_light ts : Forall light (map (ann P hf) ts).
Proof. induction ts; constructor; auto. apply ann_light. Qed.

Lemma spec_item_light n l n' x e k u : Forall light l -> parse_spec_item P hf n l = (n', Some ((x, e), k, u)) ->
  1 <= k /\ (size e <= heft_of w m (firstn k (toks l)))%N.
Proof.
  intros Hg H. unfold parse_spec_item in H.
  destruct l as [|[[y|c j|lt|d ts] f1 f2 f3] [|eq r]]; try discriminate H.
  destruct (ident_allowed P y && is_equals (a_tok eq)); [|discriminate H].
  destruct (parse_expr P hf n r) as [n1 [[e1 k1] u1]] eqn:Ee.
  assert (Hr : Forall light r) by (inversion Hg as [|? ? _ H1]; inversion H1; assumption).
  pose proof (expr_light _ _ _ _ _ _ Hr Ee) as He. unfold fits in He.
  destruct (ends is_separator (toks (skipn k1 r))); [|discriminate H]. injection H as _ _ <- <- _. split; [lia|].
  cbn [toks map a_tok firstn]. rewrite !heft_cons. fold (toks r). cbn [heft]. lia.
Qed.

Lemma spec_light l : Forall light l -> forall skip used n n' items used' rest u, parse_spec P hf l skip used n = (n', Some (items, used', rest, u)) ->
  (sizes (map snd items) <= heft_of w m (skipn (match skip with Some k => k | None => 0 end) (toks l)))%N.
Proof.
  induction 1 as [|t r Ht Hr IH]; intros skip used n n' items used' rest u H; cbn [parse_spec] in H.
  - destruct skip as [[|k]|]; try discriminate H; injection H as _ <- _ _ _; apply N.le_0_l.
  - cbn [toks map]. fold (toks r). destruct skip as [[|k]|].
    + destruct (is_separator (a_tok t)); [|discriminate H].
      destruct (match used with Some u => _ | None => _ end); [discriminate H|].
      destruct (peek_ident P r); [apply IH in H; cbn [skipn] in *; rewrite heft_cons; lia|injection H as _ <- _ _ _; apply N.le_0_l].
    + apply IH in H. exact H.
    + destruct (parse_spec_item P hf n (t :: r)) as [n1 o1] eqn:Ei.
      destruct o1 as [[[[x e] k] u1]|]; [|discriminate H].
      destruct (spec_item_light _ _ _ _ _ _ _ (Forall_cons _ Ht Hr) Ei) as (Hk & Hi). destruct k as [|k]; [lia|].
      destruct (parse_spec P hf r (Some k) used n1) as [n2 o2] eqn:E2. destruct o2 as [[[[its us] rs] u2]|]; [|discriminate H].
      injection H as _ <- _ _ _. apply IH in E2. cbn [map snd skipn]. rewrite heft_cons, (heft_first k (toks r)).
      cbn [toks map firstn] in Hi. fold (toks r) in Hi. rewrite heft_cons in Hi.
      change (sizes (e :: map snd its)) with (size e + sizes (map snd its))%N. lia.
Qed.

Lemma source_list_light n t n' vs u : parse_source_list P hf n (ann P hf t) = (n', Some (vs, u)) ->
  (sizes (flat_map source_exprs vs) <= heft w m t)%N.
Proof.
  unfold parse_source_list. replace (a_tok (ann P hf t)) with t by (destruct t as [x|c j|l|[| | |] us]; reflexivity).
  destruct t as [x|c j|lt|[| | |] ts]; try discriminate.
  destruct (parse_terminated (parse_source_value P hf) (map (ann P hf) ts) None n) as [n1 o1] eqn:E. intros H.
  destruct o1 as [as_|]; [|discriminate H]. injection H as _ <- _.
  apply (terminated_light _ (fun p : loop_source_value * bool => source_exprs (fst p))) in E; [|clear E|apply anns_light].
  - cbn [skipn] in E. rewrite toks_ann in E. cbn [any_unexpected fst heft]. fold (heft_of w m ts).
    replace (flat_map source_exprs (map fst as_)) with (flat_map (fun p : loop_source_value * bool => source_exprs (fst p)) as_); [nia|].
    clear. induction as_ as [|a l IH]; [reflexivity|]. cbn. rewrite <- IH. reflexivity.
  - intros m' l' m'' a k Hl Hi. unfold parse_source_value in Hi.
    assert (Ex : forall m1, match parse_expr P hf m1 l' with (n', (e, k, u)) => (n', Some (LSValue e, u, k)) end = (m'', Some (a, k)) ->
       fits l' k (sizes (source_exprs (fst a)))).
    { intros m1. destruct (parse_expr P hf m1 l') as [m2 [[e k1] u2]] eqn:Ee. intros H. injection H as _ <- <-. cbn [fst source_exprs]. unfold sizes. cbn [map fold_right].
      rewrite N.add_0_r. eapply expr_light; eassumption. }
    destruct l' as [|[[x|c j|lt|[| | |] inner] f1 f2 f3] l']; try (exact (Ex _ Hi)).
    pose proof Hl as Hl'. inversion Hl' as [|? ? (_ & Ht) _]; subst. cbn [a_tuple] in *.
    destruct (f2 m') as [m1 [[t u2]|]] eqn:Et; [|exact (Ex _ Hi)].
    injection Hi as _ <- <-. specialize (Ht _ _ _ Et). cbn [fst source_exprs]. unfold fits. cbn [toks map a_tok firstn]. rewrite heft_cons.
    cbn [a_tok] in Ht. lia.
Qed.

Lemma loops_light ts : forall n n' items rest u, parse_loops P hf (map (ann P hf) ts) n = (n', Some (items, rest, u)) ->
  exists rest', rest = map (ann P hf) rest' /\ (sizes (flat_map loop_exprs items) + heft_of w m rest' <= heft_of w m ts)%N.
Proof.
  remember (List.length ts) as len eqn:Hlen. assert (Hle : List.length ts <= len) by lia. clear Hlen. revert ts Hle.
  induction len as [|len IH]; intros ts Hle n n' items rest u H.
  - destruct ts; [|cbn in Hle; lia]. injection H as _ <- <- _. exists []. split; [reflexivity|apply N.le_0_l].
  - destruct ts as [|f r0]; cbn [map parse_loops] in H.
    { injection H as _ <- <- _. exists []. split; [reflexivity|apply N.le_0_l]. }
    destruct (is_word (txt "for") (a_tok (ann P hf f))).
    2:{ injection H as _ <- <- _. exists (f :: r0). split; [reflexivity|]. cbn [flat_map]. unfold sizes. cbn [map fold_right]. lia. }
    destruct r0 as [|pat [|kw [|src r]]]; try discriminate H. cbn [map] in H.
    destruct (parse_loop_alias P (ann P hf pat)) as [al|]; [|discriminate H].
    destruct (is_word (txt "in") (a_tok (ann P hf kw))); [|discriminate H].
    destruct (parse_source_list P hf n (ann P hf src)) as [n1 o1] eqn:Es.
    destruct o1 as [[vals u1]|]; [|discriminate H]. apply source_list_light in Es.
    destruct (parse_loops P hf (map (ann P hf) r) n1) as [n2 o2] eqn:Er. destruct o2 as [[[its rs] u2]|]; [|discriminate H].
    injection H as _ <- <- _. apply IH in Er; [|cbn in Hle; lia]. destruct Er as (rest' & -> & Er). exists rest'. split; [reflexivity|].
    cbn [flat_map]. rewrite sizes_app. unfold loop_exprs at 1. cbn [loop_values]. rewrite !heft_cons. lia.
Qed.

Lemma header_light n ts loops spec rest u : parse_header P hf n (map (ann P hf) ts) = Some (loops, spec, rest, u) ->
  (sizes (match loops with Some ls => flat_map loop_exprs ls | None => [] end ++
          match spec with Some s => map snd (spec_items s) | None => [] end) <= heft_of w m ts)%N.
Proof.
  unfold parse_header. destruct (parse_loops P hf (map (ann P hf) ts) n) as [n1 o] eqn:El.
  destruct o as [[[items l1] u1]|]; [|discriminate]. apply loops_light in El as (rest' & -> & El).
  set (loops' := match items with [] => None | _ => Some items end).
  assert (Ex : match loops' with Some ls => flat_map loop_exprs ls | None => [] end = flat_map loop_exprs items)
    by (subst loops'; destruct items; reflexivity).
  destruct (peek_ident P (map (ann P hf) rest')).
  - destruct (parse_spec P hf (map (ann P hf) rest') None None n1) as [n2 o2] eqn:Es. cbn [snd].
    destruct o2 as [[[[its used] l2] u2]|]; [|discriminate]. intros H. injection H as <- <- <- <-.
    apply spec_light in Es; [|apply anns_light]. cbn [skipn] in Es. rewrite toks_ann in Es. rewrite Ex, sizes_app. cbn [spec_items]. lia.
  - intros H. injection H as <- <- <- <-. rewrite Ex, app_nil_r. lia.
Qed.

Lemma func_macro_light n ts ast : p_ast (parse_func_macro P hf n ts) = Ok (Some ast) -> (sizes (ast_exprs ast) <= heft_of w m ts)%N.
Proof.
  unfold parse_func_macro. destruct (parse_header P hf n (map (ann P hf) ts)) as [[[[loops spec] l] u1]|] eqn:Eh; [|discriminate].
  apply header_light in Eh. destruct (pre_block P (toks l)) as [[[block k] u2]|]; [|discriminate].
  assert (Done : Ok (if u1 || u2 then None else Some {| ast_loops := loops; ast_spec := spec; ast_block := block |}) = Ok (Some ast) ->
    (sizes (ast_exprs ast) <= heft_of w m ts)%N).
  { destruct (u1 || u2); intros H; [discriminate|]. injection H as <-. exact Eh. }
  destruct (skipn k (toks l)) as [|t r]; [exact Done|].
  destruct (is_separator t && negb (trailing_mixed t spec)); [|discriminate]. destruct r; [exact Done|discriminate].
Qed.
Lemma attr_macro_light n attr item ast : p_ast (parse_attr_macro P hf n attr item) = Ok (Some ast) -> (sizes (ast_exprs ast) <= heft_of w m attr)%N.
Proof.
  unfold parse_attr_macro. destruct (parse_header P hf n (map (ann P hf) attr)) as [[[[loops spec] l] u1]|] eqn:Eh; [|discriminate].
  apply header_light in Eh. destruct (skip_separator loops spec (toks l)) as [[|? ?]|]; try discriminate. destruct u1; [discriminate|].
  destruct (pre_block P [TGroup Brace item]) as [[[block [|[|k]]] [|]]|]; try discriminate.
  intros H. injection H as <-. exact Eh.
Qed.
End Size.

Lemma use_light O P w m size : (1 <= m)%N -> (forall id v, (size (EValue id v) <= w)%N) ->
  (forall id x args raw, (size (ECall id x args raw) <= w + m * fold_right N.add 0 (map size args))%N) ->
  forall u ast, p_ast (inv_parsed (invocation_for O P u)) = Ok (Some ast) ->
  (fold_right N.add 0 (map size (ast_exprs ast)) <= heft_of w m (written (u_source u)))%N.
Proof.
  intros Hm Hv Hc [[ts|ts|attr item] seed first next] ast H; cbn in H |- *.
  - exact (func_macro_light P (known O) w m size Hm Hv Hc _ _ _ H).
  - exact (func_macro_light P (known O) w m size Hm Hv Hc _ _ _ H).
  - exact (attr_macro_light P (known O) w m size Hm Hv Hc _ _ _ _ H).
Qed.
