(** Proofs: the ids of a parsed input with invisible groups are distinct, its calls name
    functions. *)
From Coq Require Import String.
From Verif Require Import Base BaseFacts Token Types Values Ast Item Interpreter Parse SpecElab SpecParse ExpandProofs ParseIds Macro InvisibleParse InvisibleMacro.
Open Scope list_scope.

Section Ids.
Context (P : parsers) (hf : str -> bool).
Let dk := drawn_known hf.

Lemma value_drawn term n ts n' e k u : parse_value P term n ts = (n', (e, k, u)) ->
  exists id v, e = EValue id v /\ (n <= id)%N /\ (id < n')%N.
Proof.
  unfold parse_value.
  assert (G : forall l acc, (n <= fst acc)%N -> match snd acc with Some (_, (e, _, _)) => exists id v, e = EValue id v /\ (n <= id)%N /\ (id < fst acc)%N | None => True end ->
    let r := fold_left (attempt term ts) l acc in
    (n <= fst r)%N /\ match snd r with Some (_, (e, _, _)) => exists id v, e = EValue id v /\ (n <= id)%N /\ (id < fst r)%N | None => True end).
  { induction l as [|o l IH]; intros acc H1 H2; [split; assumption|]. cbn [fold_left].
    assert (Ha : (n <= fst (attempt term ts acc o))%N /\ match snd (attempt term ts acc o) with Some (_, (e, _, _)) => exists id v, e = EValue id v /\ (n <= id)%N /\ (id < fst (attempt term ts acc o))%N | None => True end).
    { destruct acc as [m best]. unfold attempt. cbn [fst snd] in H1, H2. destruct (try_parse term ts o) as [[[v j] w]|]; [|split; assumption].
      destruct best as [[q [[e0 j0] w0]]|]; [destruct (Nat.ltb q _)|]; cbn [fst snd]; split; try lia; try assumption; exists m, v; repeat split; lia. }
    apply IH; apply Ha. }
  specialize (G (attempts P ts) (n, None) (N.le_refl n) I). cbv zeta in G. destruct (fold_left _ _ _) as [n1 [[q [[e1 k1] u1]]|]]; destruct G as (G1 & G2); cbn [fst snd] in G1, G2.
  - intros H. injection H as <- <- <- <-. exact G2.
  - intros H. injection H as <- <- <- <-. exists n1, (VTokens (until term ts)). repeat split; lia.
Qed.

Definition egood (e : entry) : Prop := match e with Open => True | Tok a => good hf a end.
Lemma seen_good l : Forall egood l -> Forall egood (seen l).
Proof. induction 1 as [|[|a] l H Hl IH]; [constructor|exact IH|constructor; assumption]. Qed.

Lemma call_ids n args n' inner x : hf x = true -> dk n n' args -> dk n (N.succ (N.succ n')) [ECall (N.succ n') x args (Some (n', inner))].
Proof.
  intros E (Hd & Hk). split.
  - cbn [flat_map ids]. rewrite app_nil_r. pose proof (drawn_le _ _ _ Hd) as Hle. destruct Hd as (_ & Hnd & Hf).
    assert (Hrest : drawn n (N.succ (N.succ n')) (flat_map ids args ++ [n'; N.succ n'])).
    { eapply drawn_app; [split; [exact Hle|split; [exact Hnd|exact Hf]]|].
      split; [lia|]. split; [|repeat constructor; lia].
      constructor; [cbn; lia|constructor; [cbn; auto|constructor]]. }
    destruct Hrest as (H1 & H2 & H3). split; [exact H1|]. split.
    + change [n'; N.succ n'] with ([n'] ++ [N.succ n']) in H2. rewrite app_assoc in H2.
      apply NoDup_rev in H2. rewrite rev_app_distr in H2. cbn [rev app] in H2.
      inversion H2 as [|? ? Hni Hnd']; subst. constructor.
      * intros Hin. apply Hni. apply -> in_rev. exact Hin.
      * apply NoDup_rev in Hnd'. rewrite rev_involutive in Hnd'. exact Hnd'.
    + rewrite Forall_forall in H3 |- *. intros y Hy. apply H3. cbn in Hy. rewrite in_app_iff in *. cbn in *. tauto.
  - constructor; [|constructor]. constructor; assumption.
Qed.
Lemma call_drawn n l n' e k : Forall egood l -> parse_call P hf n l = Some (n', (e, k)) -> dk n n' [e].
Proof.
  intros Hg H. unfold parse_call in H. apply seen_good in Hg.
  destruct (seen l) as [|[|[[x|c j|lt|d ts] f1 f2 f3]] r]; try discriminate H. inversion Hg as [|? ? _ Hr]; subst. apply seen_good in Hr.
  destruct (seen r) as [|[|[[y|c' j'|lt'|[| | |] inner] g1 g2 g3]] r']; try discriminate H. inversion Hr as [|? ? Hga0 _]; subst. destruct (Hga0 : good hf _) as (Hga & _).
  destruct (ident_allowed P x && hf x) eqn:E; [|discriminate H]. apply andb_true_iff in E as (_ & E).
  cbn [a_args] in *. destruct (g1 n) as [n1 args] eqn:Ea. injection H as <- <- <-. apply call_ids; [exact E|exact (Hga _ _ _ Ea)].
Qed.
Lemma expr_drawn n l ts n' e k u : Forall egood l -> parse_expr P hf n l ts = (n', (e, k, u)) -> dk n n' [e].
Proof.
  intros Hg H. unfold parse_expr in H. destruct (parse_call P hf n l) as [[n1 [e1 k1]]|] eqn:E.
  - injection H as <- <- <- <-. eapply call_drawn; eassumption.
  - apply value_drawn in H as (id & v & -> & H1 & H2). split; [|repeat constructor].
    cbn. split; [lia|]. split; [repeat constructor; auto|repeat constructor; lia].
Qed.

Section Terminated.
Context {A : Type} (item : N -> list entry -> list tt -> N * option (A * nat)) (exprs : A -> list expr).
Context (Hitem : forall n l ts n' o, Forall egood l -> item n l ts = (n', o) ->
  dk n n' (match o with Some (a, _) => exprs a | None => [] end)).
Lemma terminated_drawn l : Forall egood l -> forall ts at_ n n' o, parse_terminated item l ts at_ n = (n', o) ->
  dk n n' (match o with Some as_ => flat_map exprs as_ | None => [] end).
Proof.
  induction 1 as [|t r Ht Hr IH]; intros ts at_ n n' o H; cbn [parse_terminated] in H.
  - injection H as <- <-. destruct at_; apply dk_nil; lia.
  - assert (Sep : forall n n' o, match t with
        | Open => parse_terminated item r (advance 1 ts) Sep n
        | Tok t => if is_comma (a_tok t) then parse_terminated item r (advance 1 ts) Item n else (n, None)
        end = (n', o) -> dk n n' (match o with Some as_ => flat_map exprs as_ | None => [] end)).
    { clear n n' o H. intros n n' o H. destruct t as [|t]; [eapply IH; exact H|]. destruct (is_comma (a_tok t)); [eapply IH; exact H|].
      injection H as <- <-. apply dk_nil. lia. }
    destruct at_ as [|[|k]|].
    + destruct (item n (t :: r) ts) as [n1 [[a k]|]] eqn:E.
      * pose proof (Hitem _ _ _ _ _ (Forall_cons _ Ht Hr) E) as Ha. cbn in Ha.
        set (c := match k with 0 => _ | S k' => _ end) in H.
        assert (Hc : let '(n2, rest) := c in dk n1 n2 (match rest with Some as_ => flat_map exprs as_ | None => [] end)).
        { subst c. destruct k as [|k].
          - match goal with |- let '(_, _) := ?x in _ => destruct x as [n2 rest] eqn:E2 end. eapply Sep; exact E2.
          - destruct (parse_terminated item r (advance 1 ts) (Skip k) n1) as [n2 rest] eqn:E2. eapply IH; exact E2. }
        destruct c as [n2 rest]. injection H as <- <-. destruct rest as [as_|]; cbn [option_map flat_map].
        -- eapply dk_app; eassumption.
        -- eapply dk_drop; [exact Ha|]. exact (dk_le _ _ _ _ Hc).
      * injection H as <- <-. exact (Hitem _ _ _ _ _ (Forall_cons _ Ht Hr) E).
    + eapply Sep; exact H.
    + eapply IH; exact H.
    + eapply Sep; exact H.
Qed.
End Terminated.

Lemma firstn_good k l : Forall egood l -> Forall egood (firstn k l).
Proof. intros H. revert k. induction H; intros [|k]; cbn; auto. Qed.
Lemma single_exprs (es : list expr) : flat_map (fun e => [e]) es = es.
Proof. induction es as [|a l IH]; [reflexivity|]. cbn. rewrite IH. reflexivity. Qed.
Lemma args_drawn l ts n n' es : Forall egood l -> parse_args P hf l ts n = (n', es) -> dk n n' es.
Proof.
  intros Hg H. unfold parse_args in H.
  destruct (parse_terminated (parse_arg P hf) l ts Item n) as [n1 o] eqn:E.
  assert (Hd : dk n n1 (match o with Some as_ => flat_map (fun e => [e]) as_ | None => [] end)).
  { eapply terminated_drawn; [|exact Hg|exact E]. intros m l' ts' m' o' Hl Hi. unfold parse_arg in Hi.
    destruct (parse_expr P hf m (firstn _ l') _) as [m1 [[e k] u]] eqn:Ee.
    pose proof (expr_drawn _ _ _ _ _ _ _ (firstn_good _ l' Hl) Ee) as He.
    destruct (exhausted _); [destruct u|]; injection Hi as <- <-; auto; apply dk_nil; exact (dk_le _ _ _ _ He). }
  destruct o as [as_|]; injection H as <- <-; [|exact Hd]. rewrite single_exprs in Hd. exact Hd.
Qed.

Lemma any_exprs {A} (f : A -> list expr) (as_ : list (A * bool)) : flat_map f (map fst as_) = flat_map (fun p => f (fst p)) as_.
Proof. induction as_ as [|a l IH]; [reflexivity|]. cbn. rewrite <- IH. reflexivity. Qed.
Lemma tuple_drawn l ts n n' o : Forall egood l -> parse_tuple P hf l ts n = (n', o) ->
  dk n n' (match o with Some (t, _) => flat_map tuple_exprs t | None => [] end).
Proof.
  intros Hg H. unfold parse_tuple in H.
  destruct (parse_terminated (parse_tuple_value P hf) l ts Item n) as [n1 o1] eqn:E. injection H as <- <-.
  assert (Hd : dk n n1 (match o1 with Some as_ => flat_map (fun p : tuple_value expr * bool => tuple_exprs (fst p)) as_ | None => [] end)).
  { eapply terminated_drawn; [|exact Hg|exact E]. intros m l' ts' m' o' Hl Hi. unfold parse_tuple_value in Hi.
    assert (Ex : match parse_expr P hf m l' ts' with (n', (e, k, u)) => (n', Some (TVValue e, u, k)) end = (m', o') ->
       dk m m' (match o' with Some (a, _) => tuple_exprs (fst a) | None => [] end)).
    { destruct (parse_expr P hf m l' ts') as [m1 [[e k] u]] eqn:Ee. intros H. injection H as <- <-. cbn. eapply expr_drawn; eassumption. }
    apply seen_good in Hl. destruct (seen l') as [|[|[[x|c j|lt|[| | |] inner] f1 f2 f3]] r]; try (exact (Ex Hi)).
    inversion Hl as [|? ? Ht0 _]; subst. destruct (Ht0 : good hf _) as (_ & Ht). cbn [a_tuple] in *. destruct (f2 m) as [m1 [[t u]|]] eqn:Et; injection Hi as <- <-;
      exact (Ht _ _ _ Et). }
  destruct o1 as [as_|]; [|exact Hd]. cbn [option_map any_unexpected fst]. rewrite any_exprs. exact Hd.
Qed.

Lemma ann_good t : Forall egood (ann P hf t).
Proof.
  assert (Triv : forall t, Forall egood [Tok {| a_tok := t; a_args := fun n => (n, []); a_tuple := fun n => (n, None); a_pattern := None |}]).
  { clear t. intros t. constructor; [|constructor]. split; cbn; intros n n' o H; injection H as <- <-; apply dk_nil; lia. }
  induction t as [x|c j|l|d ts IH] using tt_ind'; try apply Triv.
  assert (Hg : Forall egood (flat_map (ann P hf) ts)) by (clear - IH; induction IH; [constructor|]; cbn; apply Forall_app; auto).
  destruct d; try apply Triv.
  - cbn [ann]. constructor; [|constructor]. split; cbn [a_args a_tuple]; intros n n' o H; [eapply args_drawn|eapply tuple_drawn]; eassumption.
  - cbn [ann]. constructor; [exact I|exact Hg].
Qed.
Lemma anns_good ts : Forall egood (flat_map (ann P hf) ts).
Proof. induction ts; [constructor|]. cbn. apply Forall_app. split; [apply ann_good|assumption]. Qed.

Lemma spec_item_drawn n l ts n' o : Forall egood l -> parse_spec_item P hf n l ts = (n', o) ->
  dk n n' (match o with Some ((_, e), _, _) => [e] | None => [] end).
Proof.
  intros Hg H. unfold parse_spec_item in H. apply seen_good in Hg.
  destruct (seen l) as [|[|[[x|c j|lt|d g] f1 f2 f3]] r]; try (injection H as <- <-; apply dk_nil; lia).
  inversion Hg as [|? ? _ Hr]; subst. apply seen_good in Hr.
  destruct (seen r) as [|[|eq] r']; try (injection H as <- <-; apply dk_nil; lia). inversion Hr as [|? ? _ Hr']; subst.
  destruct (ident_allowed P x && is_equals (a_tok eq)); [|injection H as <- <-; apply dk_nil; lia].
  cbv zeta in H. destruct (parse_expr P hf n r' _) as [n1 [[e k] u]] eqn:Ee.
  pose proof (expr_drawn _ _ _ _ _ _ _ Hr' Ee) as He.
  destruct (ends_at is_separator _); injection H as <- <-; [exact He|]. apply dk_nil. exact (dk_le _ _ _ _ He).
Qed.

Lemma spec_drawn l : Forall egood l -> forall ts at_ used n n' o, parse_spec P hf l ts at_ used n = (n', o) ->
  dk n n' (match o with Some (items, _, _, _) => map snd items | None => [] end).
Proof.
  induction 1 as [|t r Ht Hr IH]; intros ts at_ used n n' o H; cbn [parse_spec] in H.
  - destruct at_ as [|[|k]|]; injection H as <- <-; apply dk_nil; lia.
  - assert (Sep : forall u, (if is_separator (a_tok u)
      then if match used with Some u0 => negb (Bool.eqb u0 (is_comma (a_tok u))) | None => false end then (n, None)
           else if peek_ident P r then parse_spec P hf r (advance 1 ts) Item (Some (is_comma (a_tok u))) n
           else (n, Some ([], Some (is_comma (a_tok u)), advance 1 ts, false))
      else (n, None)) = (n', o) -> dk n n' (match o with Some (items, _, _, _) => map snd items | None => [] end)).
    { intros u Hu. destruct (is_separator (a_tok u)); [|injection Hu as <- <-; apply dk_nil; lia].
      destruct (match used with Some u => _ | None => _ end); [injection Hu as <- <-; apply dk_nil; lia|].
      destruct (peek_ident P r); [eapply IH; exact Hu|injection Hu as <- <-; apply dk_nil; lia]. }
    destruct at_ as [|[|k]|].
    + destruct (parse_spec_item P hf n (t :: r) ts) as [n1 o1] eqn:Ei.
      pose proof (spec_item_drawn _ _ _ _ _ (Forall_cons _ Ht Hr) Ei) as Hi.
      destruct o1 as [[[[x e] [|k]] u]|]; try (injection H as <- <-; apply dk_nil; exact (dk_le _ _ _ _ Hi)).
      destruct (parse_spec P hf r (advance 1 ts) (Skip k) used n1) as [n2 rest] eqn:E2. injection H as <- <-.
      specialize (IH _ _ _ _ _ _ E2). destruct rest as [[[[items used'] rest'] u']|]; cbn [option_map map snd].
      * change (e :: map snd items) with ([e] ++ map snd items). eapply dk_app; [exact Hi|exact IH].
      * eapply dk_drop; [exact Hi|exact (dk_le _ _ _ _ IH)].
    + destruct t as [|t]; [eapply IH; exact H|exact (Sep _ H)].
    + eapply IH; exact H.
    + destruct t as [|t]; [eapply IH; exact H|exact (Sep _ H)].
Qed.

Lemma source_list_drawn n t n' o : parse_source_list P hf n t = (n', o) ->
  dk n n' (match o with Some (vs, _) => flat_map source_exprs vs | None => [] end).
Proof.
  unfold parse_source_list. destruct (a_tok t) as [x|c j|lt|[| | |] ts]; try (intros H; injection H as <- <-; apply dk_nil; lia).
  destruct (parse_terminated (parse_source_value P hf) (flat_map (ann P hf) ts) ts Item n) as [n1 o1] eqn:E. intros H. injection H as <- <-.
  assert (Hd : dk n n1 (match o1 with Some as_ => flat_map (fun p : loop_source_value * bool => source_exprs (fst p)) as_ | None => [] end)).
  { eapply terminated_drawn; [|apply anns_good|exact E]. clear. intros m l' ts' m' o' Hl Hi. unfold parse_source_value in Hi.
    assert (Ex : forall m1, match parse_expr P hf m1 l' ts' with (n', (e, k, u)) => (n', Some (LSValue e, u, k)) end = (m', o') ->
       dk m1 m' (match o' with Some (a, _) => source_exprs (fst a) | None => [] end)).
    { intros m1. destruct (parse_expr P hf m1 l' ts') as [m2 [[e k] u]] eqn:Ee. intros H. injection H as <- <-. cbn. eapply expr_drawn; eassumption. }
    apply seen_good in Hl. destruct (seen l') as [|[|[[x|c j|lt|[| | |] inner] f1 f2 f3]] r]; try (exact (Ex _ Hi)).
    inversion Hl as [|? ? Ht0 _]; subst. destruct (Ht0 : good hf _) as (_ & Ht). cbn [a_tuple] in *.
    destruct (f2 m) as [m1 [[t u]|]] eqn:Et.
    - injection Hi as <- <-. exact (Ht _ _ _ Et).
    - specialize (Ht _ _ _ Et). cbn in Ht. specialize (Ex _ Hi).
      pose proof (dk_app _ _ _ _ _ _ Ht Ex) as H. exact H. }
  destruct o1 as [as_|]; [|exact Hd]. cbn [option_map any_unexpected fst]. rewrite any_exprs. exact Hd.
Qed.
Lemma loop_drawn n l n' o : parse_loop P hf n l = (n', o) ->
  dk n n' (match o with Some (Some (item, _, _)) => loop_exprs item | _ => [] end).
Proof.
  unfold parse_loop. intros H.
  assert (Fail : forall m (q : option (option (loop_item * bool * nat))), match q with Some (Some _) => False | _ => True end -> (n <= m)%N -> (m, q) = (n', o) ->
    dk n n' (match o with Some (Some (item, _, _)) => loop_exprs item | _ => [] end)).
  { intros m q Hq Hm E. injection E as <- <-. destruct q as [[q|]|]; [destruct Hq| |]; apply dk_nil; exact Hm. }
  destruct (seen l) as [|[|f] r0]; try (first [exact (Fail n None I (N.le_refl n) H)|exact (Fail n (Some None) I (N.le_refl n) H)]).
  destruct (is_word _ _); [|first [exact (Fail n None I (N.le_refl n) H)|exact (Fail n (Some None) I (N.le_refl n) H)]].
  destruct (seen r0) as [|[|pat] r1]; try (first [exact (Fail n None I (N.le_refl n) H)|exact (Fail n (Some None) I (N.le_refl n) H)]).
  destruct (seen r1) as [|[|kw] r2]; try (first [exact (Fail n None I (N.le_refl n) H)|exact (Fail n (Some None) I (N.le_refl n) H)]).
  destruct (seen r2) as [|[|src] r]; try (first [exact (Fail n None I (N.le_refl n) H)|exact (Fail n (Some None) I (N.le_refl n) H)]).
  destruct (parse_loop_alias P pat) as [al|]; [|first [exact (Fail n None I (N.le_refl n) H)|exact (Fail n (Some None) I (N.le_refl n) H)]].
  destruct (is_word _ _); [|first [exact (Fail n None I (N.le_refl n) H)|exact (Fail n (Some None) I (N.le_refl n) H)]].
  destruct (parse_source_list P hf n src) as [n1 o1] eqn:Es. pose proof (source_list_drawn _ _ _ _ Es) as Hs.
  destruct o1 as [[vals u]|]; [|exact (Fail n1 None I (dk_le _ _ _ _ Hs) H)]. injection H as <- <-. exact Hs.
Qed.
Lemma loops_drawn l : Forall egood l -> forall ts skip n n' o, parse_loops P hf l ts skip n = (n', o) ->
  dk n n' (match o with Some (items, _, _, _) => flat_map loop_exprs items | None => [] end) /\
  (forall items rest ts' u, o = Some (items, rest, ts', u) -> Forall egood rest).
Proof.
  induction 1 as [|t r Ht Hr IH]; intros ts skip n n' o H; cbn [parse_loops] in H.
  - destruct skip; injection H as <- <-; (split; [apply dk_nil; lia|]; intros items rest ts' u E; injection E as <- <- <- <-; constructor).
  - destruct skip as [|k]; [|eapply IH; exact H].
    destruct (parse_loop P hf n (t :: r)) as [n1 o1] eqn:El. pose proof (loop_drawn _ _ _ _ El) as Hl. destruct o1 as [[[[item u] k]|]|].
    + destruct (parse_loops P hf r (advance 1 ts) (pred k) n1) as [n2 rest] eqn:Er. injection H as <- <-.
      destruct (IH _ _ _ _ _ Er) as (Hd & Hrest). destruct rest as [[[[items rest'] ts''] u']|]; cbn [option_map flat_map].
      * split; [eapply dk_app; eassumption|]. intros items0 rest0 ts0 u0 E. injection E as <- <- <- <-. eapply Hrest; reflexivity.
      * split; [eapply dk_drop; [exact Hl|exact (dk_le _ _ _ _ Hd)]|discriminate].
    + injection H as <- <-. split; [exact Hl|]. intros items rest ts' u E. injection E as <- <- <- <-. constructor; assumption.
    + injection H as <- <-. split; [exact Hl|discriminate].
Qed.

Lemma header_drawn n ts loops spec rest u : parse_header P hf n ts = Some (loops, spec, rest, u) ->
  exists n', dk n n' (match loops with Some ls => flat_map loop_exprs ls | None => [] end ++
                     match spec with Some s => map snd (spec_items s) | None => [] end).
Proof.
  unfold parse_header. destruct (parse_loops P hf (flat_map (ann P hf) ts) ts 0 n) as [n1 o] eqn:El.
  destruct (loops_drawn _ (anns_good ts) _ _ _ _ _ El) as (Hl & Hrest).
  destruct o as [[[[items l1] ts1] u1]|]; [|discriminate]. specialize (Hrest _ _ _ _ eq_refl).
  set (loops' := match items with [] => None | _ => Some items end).
  assert (Ex : match loops' with Some ls => flat_map loop_exprs ls | None => [] end = flat_map loop_exprs items)
    by (subst loops'; destruct items; reflexivity).
  destruct (peek_ident P l1).
  - destruct (parse_spec P hf l1 ts1 Item None n1) as [n2 o2] eqn:Es. cbn [snd].
    destruct o2 as [[[[its used] l2] u2]|]; [|discriminate]. intros H. injection H as <- <- <- <-.
    exists n2. rewrite Ex. eapply dk_app; [exact Hl|]. exact (spec_drawn _ Hrest _ _ _ _ _ _ Es).
  - intros H. injection H as <- <- <- <-. exists n1. rewrite Ex, app_nil_r. exact Hl.
Qed.

Lemma func_macro_drawn n ts ast : p_ast (parse_func_macro P hf n ts) = Ok (Some ast) ->
  exists n', dk n n' (ast_exprs ast).
Proof.
  unfold parse_func_macro. destruct (parse_header P hf n ts) as [[[[loops spec] l] u1]|] eqn:Eh; [|discriminate].
  apply header_drawn in Eh as (n' & Hd).
  destruct (pre_block P l) as [[[block k] u2]|]; [|discriminate].
  assert (Done : Ok (if u1 || u2 then None else Some {| ast_loops := loops; ast_spec := spec; ast_block := block |}) = Ok (Some ast) ->
    exists n', dk n n' (ast_exprs ast)).
  { destruct (u1 || u2); intros H; [discriminate|]. injection H as <-. exists n'. exact Hd. }
  destruct (next (advance k l)) as [i [t|]]; [|exact Done].
  destruct (is_separator t && negb (trailing_mixed t spec)); [|discriminate]. destruct (exhausted _); [exact Done|discriminate].
Qed.
Lemma attr_macro_drawn n attr item ast : p_ast (parse_attr_macro P hf n attr item) = Ok (Some ast) ->
  exists n', dk n n' (ast_exprs ast).
Proof.
  unfold parse_attr_macro. destruct (parse_header P hf n attr) as [[[[loops spec] l] u1]|] eqn:Eh; [|discriminate].
  apply header_drawn in Eh as (n' & Hd).
  destruct (skip_separator loops spec l) as [rest|]; try discriminate. destruct (negb (exhausted rest) || u1); [discriminate|].
  destruct (pre_block P [TGroup Brace item]) as [[[block [|[|k]]] [|]]|]; try discriminate.
  intros H. injection H as <-. exists n'. exact Hd.
Qed.
End Ids.

(** The ids of a parsed use are distinct, and its calls name functions. *)
Lemma through_source O P u ast : p_ast (inv_parsed (invocation_through O P u)) = Ok (Some ast) ->
  NoDup (flat_map ids (ast_exprs ast)) /\ Forall (calls_known (known O)) (ast_exprs ast).
Proof.
  intros H. assert (exists n', drawn (u_next_id u) n' (flat_map ids (ast_exprs ast)) /\ Forall (calls_known (known O)) (ast_exprs ast)) as (n' & (_ & Hn & _) & Hk).
  { destruct u as [[ts|ts|attr item] seed first n]; cbn in H;
      [eapply func_macro_drawn|eapply func_macro_drawn|eapply attr_macro_drawn]; exact H. }
  split; assumption.
Qed.
