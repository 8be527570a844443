(** Proofs: the ids of a parsed input are distinct, its calls name functions. *)
From Coq Require Import String.
From Verif Require Import Base BaseFacts Token Types Values Ast Item Interpreter Parse SpecElab SpecParse ParseProofs ExpandProofs.
Open Scope list_scope.

Lemma drawn_nil n n' : (n <= n')%N -> drawn n n' [].
Proof. intros H; split; [exact H|]; split; constructor. Qed.
Lemma drawn_le n n' l : drawn n n' l -> (n <= n')%N.
Proof. intros (H & _); exact H. Qed.
Lemma drawn_app n m k l1 l2 : drawn n m l1 -> drawn m k l2 -> drawn n k (l1 ++ l2).
Proof.
  intros (H1 & N1 & F1) (H2 & N2 & F2). split; [lia|]. rewrite Forall_forall in F1, F2. split.
  - apply NoDup_app_intro; auto. intros x Hx Hx'. specialize (F1 x Hx). specialize (F2 x Hx'). cbn in *. lia.
  - apply Forall_forall. intros x Hx. apply in_app_iff in Hx as [Hx|Hx]; [specialize (F1 x Hx)|specialize (F2 x Hx)]; cbn in *; lia.
Qed.
Lemma drawn_drop n m k l : drawn n m l -> (m <= k)%N -> drawn n k [].
Proof. intros (H & _) H'. apply drawn_nil. lia. Qed.
Lemma drawn_keep n m k l : drawn n m l -> (m <= k)%N -> drawn n k l.
Proof. intros H H'. rewrite <- (app_nil_r l). eapply drawn_app; [exact H|apply drawn_nil; exact H']. Qed.

(** What holds of a list of expressions drawn between [n] and [n']. *)
Definition drawn_known (hf : str -> bool) (n n' : N) (es : list expr) : Prop :=
  drawn n n' (flat_map ids es) /\ Forall (calls_known hf) es.
Lemma dk_nil hf n n' : (n <= n')%N -> drawn_known hf n n' [].
Proof. intros H; split; [apply drawn_nil; exact H|constructor]. Qed.
Lemma dk_le hf n n' l : drawn_known hf n n' l -> (n <= n')%N.
Proof. intros (H & _). exact (drawn_le _ _ _ H). Qed.
Lemma dk_app hf n m k l1 l2 : drawn_known hf n m l1 -> drawn_known hf m k l2 -> drawn_known hf n k (l1 ++ l2).
Proof.
  intros (H1 & F1) (H2 & F2). split; [rewrite flat_map_app; eapply drawn_app; eassumption|apply Forall_app; auto].
Qed.
Lemma dk_drop hf n m k l : drawn_known hf n m l -> (m <= k)%N -> drawn_known hf n k [].
Proof. intros (H & _) H'. apply dk_nil. pose proof (drawn_le _ _ _ H). lia. Qed.

Section Ids.
Context (P : parsers) (hf : str -> bool).
Let dk := drawn_known hf.

Definition good (a : atok) : Prop :=
  (forall n n' es, a_args a n = (n', es) -> dk n n' es) /\
  (forall n n' o, a_tuple a n = (n', o) ->
     dk n n' (match o with Some (t, _) => flat_map tuple_exprs t | None => [] end)).

Lemma call_drawn n l n' e k : Forall good l -> parse_call P hf n l = Some (n', (e, k)) -> dk n n' [e].
Proof.
  intros Hg H. unfold parse_call in H.
  destruct l as [|[[x|c j|lt|d ts] f1 f2 f3] [|[[y|c' j'|lt'|[| | |] inner] g1 g2 g3] l]]; try discriminate H.
  destruct (ident_allowed P x && hf x) eqn:E; [|discriminate H]. apply andb_true_iff in E as (_ & E).
  cbn [a_args] in H. destruct (g1 n) as [n1 args] eqn:Ea. injection H as <- <- <-.
  inversion Hg as [|? ? _ Hg1]; subst. inversion Hg1 as [|? ? (Hga & _) _]; subst. specialize (Hga _ _ _ Ea).
  destruct Hga as (Hd & Hk). split.
  - cbn [flat_map ids]. rewrite app_nil_r. pose proof (drawn_le _ _ _ Hd) as Hle. destruct Hd as (_ & Hnd & Hf).
    rewrite Forall_forall in Hf.
    assert (Hrest : drawn n (N.succ (N.succ n1)) (flat_map ids args ++ [n1; N.succ n1])).
    { eapply drawn_app; [split; [exact Hle|split; [exact Hnd|apply Forall_forall; exact Hf]]|].
      split; [lia|]. split; [|repeat constructor; lia].
      constructor; [cbn; lia|constructor; [cbn; auto|constructor]]. }
    destruct Hrest as (H1 & H2 & H3). split; [exact H1|]. split.
    + change [n1; N.succ n1] with ([n1] ++ [N.succ n1]) in H2. rewrite app_assoc in H2.
      apply NoDup_rev in H2. rewrite rev_app_distr in H2. cbn [rev app] in H2.
      inversion H2 as [|? ? Hni Hnd']; subst. constructor.
      * intros Hin. apply Hni. apply -> in_rev. exact Hin.
      * apply NoDup_rev in Hnd'. rewrite rev_involutive in Hnd'. exact Hnd'.
    + rewrite Forall_forall in H3 |- *. intros y Hy. apply H3. cbn in Hy. rewrite in_app_iff in *. cbn in *. tauto.
  - constructor; [|constructor]. constructor; assumption.
Qed.

Lemma expr_drawn n l n' e k u : Forall good l -> parse_expr P hf n l = (n', (e, k, u)) -> dk n n' [e].
Proof.
  intros Hg H. unfold parse_expr in H. destruct (parse_call P hf n l) as [[n1 [e1 k1]]|] eqn:E.
  - injection H as <- <- <- <-. eapply call_drawn; eassumption.
  - apply value_drawn in H as (id & v & -> & H1 & H2). split; [|repeat constructor].
    cbn. split; [lia|]. split; [repeat constructor; auto|repeat constructor; lia].
Qed.

Section Terminated.
Context {A : Type} (item : N -> list atok -> N * option (A * nat)) (exprs : A -> list expr).
Hypothesis Hitem : forall n l n' o, Forall good l -> item n l = (n', o) ->
  dk n n' (match o with Some (a, _) => exprs a | None => [] end).
Lemma terminated_drawn l : Forall good l -> forall skip n n' o, parse_terminated item l skip n = (n', o) ->
  dk n n' (match o with Some as_ => flat_map exprs as_ | None => [] end).
Proof.
  induction 1 as [|t r Ht Hr IH]; intros skip n n' o H; cbn [parse_terminated] in H.
  - injection H as <- <-. apply dk_nil. lia.
  - destruct skip as [[|k]|].
    + destruct (is_comma (a_tok t)); [eapply IH; exact H|]. injection H as <- <-. apply dk_nil. lia.
    + eapply IH; exact H.
    + destruct (item n (t :: r)) as [n1 [[a k]|]] eqn:E.
      * pose proof (Hitem _ _ _ _ (Forall_cons _ Ht Hr) E) as Ha. cbn in Ha.
        set (c := match k with 0 => _ | S k' => _ end) in H.
        assert (Hc : let '(n2, rest) := c in dk n1 n2 (match rest with Some as_ => flat_map exprs as_ | None => [] end)).
        { subst c. destruct k as [|k].
          - destruct (is_comma (a_tok t)).
            + destruct (parse_terminated item r None n1) as [n2 rest] eqn:E2. eapply IH; exact E2.
            + apply dk_nil. lia.
          - destruct (parse_terminated item r (Some k) n1) as [n2 rest] eqn:E2. eapply IH; exact E2. }
        destruct c as [n2 rest]. injection H as <- <-. destruct rest as [as_|]; cbn [option_map flat_map].
        -- eapply dk_app; eassumption.
        -- eapply dk_drop; [exact Ha|]. exact (dk_le _ _ _ _ Hc).
      * injection H as <- <-. exact (Hitem _ _ _ _ (Forall_cons _ Ht Hr) E).
Qed.
End Terminated.

Lemma good_auntil term l : Forall good l -> Forall good (auntil term l).
Proof. induction 1 as [|t r Ht Hr IH]; [constructor|]. cbn. destruct (term (a_tok t)); constructor; auto. Qed.

Lemma args_drawn l n n' es : Forall good l -> parse_args P hf l n = (n', es) -> dk n n' es.
Proof.
  intros Hg H. unfold parse_args in H.
  destruct (parse_terminated (parse_arg P hf) l None n) as [n1 o] eqn:E.
  assert (Hd : dk n n1 (match o with Some as_ => flat_map (fun e => [e]) as_ | None => [] end)).
  { eapply terminated_drawn; [|exact Hg|exact E]. intros m l' m' o' Hl Hi. unfold parse_arg in Hi.
    destruct (parse_expr P hf m (auntil is_comma l')) as [m1 [[e k] u]] eqn:Ee.
    pose proof (expr_drawn _ _ _ _ _ _ (good_auntil is_comma l' Hl) Ee) as He.
    destruct (skipn k (auntil is_comma l')); [destruct u|]; injection Hi as <- <-; auto; apply dk_nil; exact (dk_le _ _ _ _ He). }
  destruct o as [as_|]; injection H as <- <-; [|exact Hd].
  replace (flat_map (fun e : expr => [e]) as_) with as_ in Hd; [exact Hd|].
  clear. induction as_ as [|a l IH]; [reflexivity|]. cbn. rewrite <- IH. reflexivity.
Qed.

Lemma tuple_drawn l n n' o : Forall good l -> parse_tuple P hf l n = (n', o) ->
  dk n n' (match o with Some (t, _) => flat_map tuple_exprs t | None => [] end).
Proof.
  intros Hg H. unfold parse_tuple in H.
  destruct (parse_terminated (parse_tuple_value P hf) l None n) as [n1 o1] eqn:E. injection H as <- <-.
  assert (Hd : dk n n1 (match o1 with Some as_ => flat_map (fun p : tuple_value expr * bool => tuple_exprs (fst p)) as_ | None => [] end)).
  { eapply terminated_drawn; [|exact Hg|exact E]. intros m l' m' o' Hl Hi. unfold parse_tuple_value in Hi.
    assert (Ex : match parse_expr P hf m l' with (n', (e, k, u)) => (n', Some (TVValue e, u, k)) end = (m', o') ->
       dk m m' (match o' with Some (a, _) => tuple_exprs (fst a) | None => [] end)).
    { destruct (parse_expr P hf m l') as [m1 [[e k] u]] eqn:Ee. intros H. injection H as <- <-. cbn. eapply expr_drawn; eassumption. }
    destruct l' as [|[[x|c j|lt|[| | |] inner] f1 f2 f3] l']; try (exact (Ex Hi)).
    inversion Hl as [|? ? (_ & Ht) _]; subst. cbn [a_tuple] in *. destruct (f2 m) as [m1 [[t u]|]] eqn:Et; injection Hi as <- <-;
      exact (Ht _ _ _ Et). }
  destruct o1 as [as_|]; [|exact Hd]. cbn [option_map any_unexpected fst].
  replace (flat_map tuple_exprs (map fst as_)) with (flat_map (fun p : tuple_value expr * bool => tuple_exprs (fst p)) as_); [exact Hd|].
  clear. induction as_ as [|a l IH]; [reflexivity|]. cbn. rewrite <- IH. reflexivity.
Qed.

Lemma ann_good t : good (ann P hf t).
Proof.
  assert (Triv : forall t, good {| a_tok := t; a_args := fun n => (n, []); a_tuple := fun n => (n, None); a_pattern := None |}).
  { clear t. intros t. split; cbn; intros n n' o H; injection H as <- <-; apply dk_nil; lia. }
  induction t as [x|c j|l|d ts IH] using tt_ind'; cbn [ann]; try apply Triv.
  destruct d; try apply Triv.
  assert (Hg : Forall good (map (ann P hf) ts)) by (clear - IH; induction IH; constructor; auto).
  split; cbn [a_args a_tuple]; intros n n' o H; [eapply args_drawn|eapply tuple_drawn]; eassumption.
Qed.
Lemma anns_good ts : Forall good (map (ann P hf) ts).
Proof. induction ts; constructor; auto. apply ann_good. Qed.

Lemma spec_item_drawn n l n' o : Forall good l -> parse_spec_item P hf n l = (n', o) ->
  dk n n' (match o with Some ((_, e), _, _) => [e] | None => [] end).
Proof.
  intros Hg H. unfold parse_spec_item in H.
  destruct l as [|[[x|c j|lt|d ts] f1 f2 f3] [|eq r]]; try (injection H as <- <-; apply dk_nil; lia).
  destruct (ident_allowed P x && is_equals (a_tok eq)); [|injection H as <- <-; apply dk_nil; lia].
  destruct (parse_expr P hf n r) as [n1 [[e k] u]] eqn:Ee.
  assert (Hr : Forall good r) by (inversion Hg as [|? ? _ H1]; inversion H1; assumption).
  pose proof (expr_drawn _ _ _ _ _ _ Hr Ee) as He.
  destruct (ends is_separator (toks (skipn k r))); injection H as <- <-; [exact He|]. apply dk_nil. exact (dk_le _ _ _ _ He).
Qed.

Lemma spec_drawn l : Forall good l -> forall skip used n n' o, parse_spec P hf l skip used n = (n', o) ->
  dk n n' (match o with Some (items, _, _, _) => map snd items | None => [] end).
Proof.
  induction 1 as [|t r Ht Hr IH]; intros skip used n n' o H; cbn [parse_spec] in H.
  - destruct skip as [[|k]|]; injection H as <- <-; apply dk_nil; lia.
  - destruct skip as [[|k]|].
    + destruct (is_separator (a_tok t)); [|injection H as <- <-; apply dk_nil; lia].
      destruct (match used with Some u => _ | None => _ end); [injection H as <- <-; apply dk_nil; lia|].
      destruct (peek_ident P r); [eapply IH; exact H|injection H as <- <-; apply dk_nil; lia].
    + eapply IH; exact H.
    + destruct (parse_spec_item P hf n (t :: r)) as [n1 o1] eqn:Ei.
      pose proof (spec_item_drawn _ _ _ _ (Forall_cons _ Ht Hr) Ei) as Hi.
      destruct o1 as [[[[x e] [|k]] u]|]; try (injection H as <- <-; apply dk_nil; exact (dk_le _ _ _ _ Hi)).
      destruct (parse_spec P hf r (Some k) used n1) as [n2 rest] eqn:E2. injection H as <- <-.
      specialize (IH _ _ _ _ _ E2). destruct rest as [[[[items used'] rest'] u']|]; cbn [option_map map snd].
      * change (e :: map snd items) with ([e] ++ map snd items). eapply dk_app; [exact Hi|exact IH].
      * eapply dk_drop; [exact Hi|exact (dk_le _ _ _ _ IH)].
Qed.

Lemma source_list_drawn n t n' o : parse_source_list P hf n t = (n', o) ->
  dk n n' (match o with Some (vs, _) => flat_map source_exprs vs | None => [] end).
Proof.
  unfold parse_source_list. destruct (a_tok t) as [x|c j|lt|[| | |] ts]; try (intros H; injection H as <- <-; apply dk_nil; lia).
  destruct (parse_terminated (parse_source_value P hf) (map (ann P hf) ts) None n) as [n1 o1] eqn:E. intros H. injection H as <- <-.
  assert (Hd : dk n n1 (match o1 with Some as_ => flat_map (fun p : loop_source_value * bool => source_exprs (fst p)) as_ | None => [] end)).
  { eapply terminated_drawn; [|apply anns_good|exact E]. clear. intros m l' m' o' Hl Hi. unfold parse_source_value in Hi.
    assert (Ex : forall m1, match parse_expr P hf m1 l' with (n', (e, k, u)) => (n', Some (LSValue e, u, k)) end = (m', o') ->
       dk m1 m' (match o' with Some (a, _) => source_exprs (fst a) | None => [] end)).
    { intros m1. destruct (parse_expr P hf m1 l') as [m2 [[e k] u]] eqn:Ee. intros H. injection H as <- <-. cbn. eapply expr_drawn; eassumption. }
    destruct l' as [|[[x|c j|lt|[| | |] inner] f1 f2 f3] l']; try (exact (Ex _ Hi)).
    pose proof Hl as Hl'. inversion Hl' as [|? ? (_ & Ht) _]; subst. cbn [a_tuple] in *.
    destruct (f2 m) as [m1 [[t u]|]] eqn:Et.
    - injection Hi as <- <-. exact (Ht _ _ _ Et).
    - specialize (Ht _ _ _ Et). cbn in Ht. specialize (Ex _ Hi).
      pose proof (dk_app _ _ _ _ _ _ Ht Ex) as H. exact H. }
  destruct o1 as [as_|]; [|exact Hd]. cbn [option_map any_unexpected fst].
  replace (flat_map source_exprs (map fst as_)) with (flat_map (fun p : loop_source_value * bool => source_exprs (fst p)) as_); [exact Hd|].
  clear. induction as_ as [|a l IH]; [reflexivity|]. cbn. rewrite <- IH. reflexivity.
Qed.

Lemma loops_drawn l : Forall good l -> forall n n' o, parse_loops P hf l n = (n', o) ->
  dk n n' (match o with Some (items, _, _) => flat_map loop_exprs items | None => [] end) /\
  (forall items rest u, o = Some (items, rest, u) -> Forall good rest).
Proof.
  remember (List.length l) as len eqn:Hlen. assert (Hle : List.length l <= len) by lia. clear Hlen. revert l Hle.
  induction len as [|len IH]; intros l Hle Hg n n' o H.
  - destruct l; [|cbn in Hle; lia]. injection H as <- <-. split; [apply dk_nil; lia|].
    intros items rest u E. injection E as <- <- <-. constructor.
  - destruct l as [|f r0]; cbn [parse_loops] in H.
    { injection H as <- <-. split; [apply dk_nil; lia|]. intros items rest u E. injection E as <- <- <-. constructor. }
    destruct (is_word (txt "for") (a_tok f)).
    2:{ injection H as <- <-. split; [apply dk_nil; lia|]. intros items rest u E. injection E as <- <- <-. exact Hg. }
    assert (Fail : forall m, (n <= m)%N -> (m, None) = (n', o) -> dk n n' (match o with Some (items, _, _) => flat_map loop_exprs items | None => [] end) /\
      (forall items rest u, o = Some (items, rest, u) -> Forall good rest)).
    { intros m Hm E. injection E as <- <-. split; [apply dk_nil; exact Hm|discriminate]. }
    destruct r0 as [|pat [|kw [|src r]]]; try (apply (Fail n); [lia|exact H]).
    destruct (parse_loop_alias P pat) as [al|]; [|apply (Fail n); [lia|exact H]].
    destruct (is_word (txt "in") (a_tok kw)); [|apply (Fail n); [lia|exact H]].
    destruct (parse_source_list P hf n src) as [n1 o1] eqn:Es. pose proof (source_list_drawn _ _ _ _ Es) as Hs.
    destruct o1 as [[vals u]|]; [|apply (Fail n1); [exact (dk_le _ _ _ _ Hs)|exact H]].
    destruct (parse_loops P hf r n1) as [n2 rest] eqn:Er. injection H as <- <-.
    assert (Hr : Forall good r) by (inversion Hg as [|? ? _ G1]; inversion G1 as [|? ? _ G2]; inversion G2 as [|? ? _ G3]; inversion G3; assumption).
    destruct (IH r ltac:(cbn in Hle; lia) Hr _ _ _ Er) as (Hd & Hrest).
    destruct rest as [[[items rest'] u']|]; cbn [option_map flat_map].
    + split; [unfold loop_exprs at 1; cbn [loop_values]; eapply dk_app; eassumption|].
      intros items0 rest0 u0 E. injection E as <- <- <-. eapply Hrest; reflexivity.
    + split; [eapply dk_drop; [exact Hs|exact (dk_le _ _ _ _ Hd)]|discriminate].
Qed.

Lemma header_drawn n ts loops spec rest u : parse_header P hf n (map (ann P hf) ts) = Some (loops, spec, rest, u) ->
  exists n', dk n n' (match loops with Some ls => flat_map loop_exprs ls | None => [] end ++
                     match spec with Some s => map snd (spec_items s) | None => [] end).
Proof.
  unfold parse_header. destruct (parse_loops P hf (map (ann P hf) ts) n) as [n1 o] eqn:El.
  destruct (loops_drawn _ (anns_good ts) _ _ _ El) as (Hl & Hrest).
  destruct o as [[[items l1] u1]|]; [|discriminate]. specialize (Hrest _ _ _ eq_refl).
  set (loops' := match items with [] => None | _ => Some items end).
  assert (Ex : match loops' with Some ls => flat_map loop_exprs ls | None => [] end = flat_map loop_exprs items)
    by (subst loops'; destruct items; reflexivity).
  destruct (peek_ident P l1).
  - destruct (parse_spec P hf l1 None None n1) as [n2 o2] eqn:Es. cbn [snd].
    destruct o2 as [[[[its used] l2] u2]|]; [|discriminate]. intros H. injection H as <- <- <- <-.
    exists n2. rewrite Ex. eapply dk_app; [exact Hl|]. exact (spec_drawn _ Hrest _ _ _ _ _ Es).
  - intros H. injection H as <- <- <- <-. exists n1. rewrite Ex, app_nil_r. exact Hl.
Qed.

Lemma func_macro_drawn n ts ast : p_ast (parse_func_macro P hf n ts) = Ok (Some ast) ->
  exists n', dk n n' (ast_exprs ast).
Proof.
  unfold parse_func_macro. destruct (parse_header P hf n (map (ann P hf) ts)) as [[[[loops spec] l] u1]|] eqn:Eh; [|discriminate].
  apply header_drawn in Eh as (n' & Hd).
  destruct (pre_block P (toks l)) as [[[block k] u2]|]; [|discriminate].
  assert (Done : Ok (if u1 || u2 then None else Some {| ast_loops := loops; ast_spec := spec; ast_block := block |}) = Ok (Some ast) ->
    exists n', dk n n' (ast_exprs ast)).
  { destruct (u1 || u2); intros H; [discriminate|]. injection H as <-. exists n'. exact Hd. }
  destruct (skipn k (toks l)) as [|t r]; [exact Done|].
  destruct (is_separator t && negb (trailing_mixed t spec)); [|discriminate]. destruct r; [exact Done|discriminate].
Qed.
Lemma attr_macro_drawn n attr item ast : p_ast (parse_attr_macro P hf n attr item) = Ok (Some ast) ->
  exists n', dk n n' (ast_exprs ast).
Proof.
  unfold parse_attr_macro. destruct (parse_header P hf n (map (ann P hf) attr)) as [[[[loops spec] l] u1]|] eqn:Eh; [|discriminate].
  apply header_drawn in Eh as (n' & Hd).
  destruct (skip_separator loops spec (toks l)) as [[|? ?]|]; try discriminate. destruct u1; [discriminate|].
  destruct (pre_block P [TGroup Brace item]) as [[[block [|[|k]]] [|]]|]; try discriminate.
  intros H. injection H as <-. exists n'. exact Hd.
Qed.
End Ids.
