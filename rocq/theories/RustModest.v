(** The instance with the grammar of Rust is modest (C78). *)
From Coq Require Import String.
From Verif Require Import Base BaseFacts Token Types Values FormatString Env Item Concrete RustLexer RustText RustGrammar RustInstance
  SpecGrowth GrowthProofs GrowthInstance HashProofs.
Open Scope list_scope.

Local Opaque depth.

(** ** The parsers leave no more than they got *)
Definition shrinks (f : parser) : Prop := forall ts r, f ts = Some r -> (bulk r <= bulk ts)%N.
Lemma bulk_tail t ts : (bulk ts <= bulk (t :: ts))%N.
Proof. rewrite bulk_cons. lia. Qed.

Lemma shrink_word x : shrinks (word x).
Proof.
  intros [|[y| | |] r] r' H; try discriminate H. cbn in H. destruct (str_eqb (txt x) y); [|discriminate]. injection H as <-. apply bulk_tail.
Qed.
Lemma shrink_one_of l : shrinks (one_of l).
Proof.
  intros [|[y| | |] r] r' H; try discriminate H. cbn [one_of] in H. destruct (existsb _ _); [|discriminate]. injection H as <-. apply bulk_tail.
Qed.
Lemma shrink_ident : shrinks ident.
Proof.
  intros [|[y| | |] r] r' H; try discriminate H. cbn [ident] in H. destruct (plain_ident y); [|discriminate]. injection H as <-. apply bulk_tail.
Qed.
Lemma shrink_segment : shrinks (fun ts => match ts with TIdent x :: r => if segment_ident x then Some r else None | _ => None end).
Proof. intros [|[y| | |] r] r' H; try discriminate H. destruct (segment_ident y); [|discriminate]. injection H as <-. apply bulk_tail. Qed.
Lemma shrink_ch x : shrinks (ch x).
Proof. intros [|[|c j| |] q] r H; try discriminate H. cbn [ch] in H. destruct (N.eqb _ _); [|discriminate]. injection H as <-. apply bulk_tail. Qed.
Lemma shrink_op_chars x : shrinks (op_chars x).
Proof.
  induction x as [|c x IH]; intros ts r H; [cbn in H; discriminate H || (injection H as <-; lia)|].
  destruct ts as [|[y|d j|l|d g] q]; cbn [op_chars] in H; try (destruct x; discriminate). pose proof (bulk_tail (TPunct d j) q) as B. destruct x.
  - destruct (_ && _); [|discriminate]. injection H as <-. exact B.
  - destruct (_ && _); [|discriminate]. pose proof (IH _ _ H). lia.
Qed.
Lemma shrink_op x : shrinks (op x).
Proof. apply shrink_op_chars. Qed.
Lemma shrink_lifetime : shrinks lifetime.
Proof.
  intros ts r H. destruct ts as [|[|c []| |] [|[y| | |] q]]; try discriminate H. cbn in H. destruct (N.eqb c 39); [|discriminate].
  injection H as <-. rewrite !bulk_cons. lia.
Qed.
Lemma shrink_group d ts g r : group d ts = Some (g, r) -> (bulk r <= bulk ts)%N.
Proof.
  intros H. destruct ts as [|[| | |d' g'] q]; try discriminate H. cbn [group] in H. destruct (delim_eqb d d'); [|discriminate].
  injection H as <- <-. apply bulk_tail.
Qed.
Lemma shrink_then f g : shrinks f -> shrinks g -> shrinks (f ;;; g).
Proof. intros F G ts r. unfold then_. destruct (f ts) as [q|] eqn:E; [|discriminate]. intros H. apply F in E. apply G in H. lia. Qed.
Lemma shrink_or f g : shrinks f -> shrinks g -> shrinks (f <|> g).
Proof. intros F G ts r. unfold or_. destruct (f ts) as [q|] eqn:E; [intros H; injection H as <-; exact (F _ _ E)|exact (G _ _)]. Qed.
Lemma shrink_some : shrinks Some.
Proof. intros ts r H; injection H as <-; lia. Qed.
Lemma shrink_none : shrinks (fun _ => None).
Proof. intros ts r H; discriminate. Qed.
Lemma shrink_opt f : shrinks f -> shrinks (opt f).
Proof. intros F. apply shrink_or; [exact F|apply shrink_some]. Qed.
Lemma shrink_inside d f : shrinks (inside d f).
Proof.
  intros ts r. unfold inside. destruct (group d ts) as [[g q]|] eqn:E; [|discriminate]. destruct (all f g); [|discriminate].
  intros H. injection H as <-. exact (shrink_group _ _ _ _ E).
Qed.
Lemma shrink_any_group : shrinks any_group.
Proof. intros [|[| | |] q] r H; try discriminate H. injection H as <-. apply bulk_tail. Qed.
Lemma shrink_literal : shrinks literal.
Proof. intros [|[| | |] q] r H; try discriminate H. injection H as <-. apply bulk_tail. Qed.
Lemma shrink_string_lit : shrinks string_lit.
Proof. intros [|[| |[]|] q] r H; try discriminate H. injection H as <-. apply bulk_tail. Qed.
Lemma shrink_rest : shrinks rest_.
Proof. intros ts r H. injection H as <-. apply N.le_0_l. Qed.
Lemma shrink_unless f : shrinks (unless f).
Proof. intros ts r. unfold unless. destruct (f ts); [discriminate|]. intros H; injection H as <-; lia. Qed.
Lemma shrink_at_end : shrinks at_end.
Proof. intros [|] r H; [|discriminate]. injection H as <-. lia. Qed.
Lemma shrink_binary_operator : shrinks binary_operator.
Proof.
  unfold binary_operator. induction binary_operators as [|o l IH]; [apply shrink_none|].
  cbn [fold_right]. apply shrink_or; [apply shrink_op|exact IH].
Qed.
Lemma take_attrs_bulk : forall n ts, List.length ts <= n -> (bulk (snd (take_attrs ts)) <= bulk ts)%N.
Proof.
  induction n as [|n IH]; intros ts Hn.
  - destruct ts; [|cbn in Hn; inversion Hn]. cbn. lia.
  - destruct ts as [|t ts]; [cbn; lia|]. destruct t as [|c j| |]; try (cbn [take_attrs snd]; lia).
    destruct ts as [|[| | |[] m] q]; try (cbn [take_attrs snd]; lia). cbn [take_attrs]. destruct (N.eqb c 35); [|cbn [snd]; lia].
    assert (Hl : List.length q <= n) by (cbn in Hn; lia). specialize (IH q Hl). destruct (take_attrs q) as [a r]. cbn [snd] in *.
    rewrite !bulk_cons. lia.
Qed.
Lemma shrink_attrs : shrinks attrs_.
Proof. intros ts r H. injection H as <-. exact (take_attrs_bulk _ ts (le_n _)). Qed.
Lemma shrink_vis : shrinks vis_.
Proof.
  apply shrink_opt, shrink_then; [apply shrink_word|]. apply shrink_opt. intros ts r H.
  destruct (group Paren ts) as [[g q]|] eqn:E; [|discriminate]. destruct (one_of _ g); [|discriminate].
  injection H as <-. exact (shrink_group _ _ _ _ E).
Qed.
Ltac shrink :=
  repeat first
    [ assumption
    | apply shrink_word | apply shrink_one_of | apply shrink_ident | apply shrink_segment | apply shrink_ch | apply shrink_op
    | apply shrink_lifetime | apply shrink_any_group | apply shrink_literal | apply shrink_string_lit | apply shrink_rest
    | apply shrink_at_end | apply shrink_binary_operator | apply shrink_attrs | apply shrink_vis
    | apply shrink_opt | apply shrink_then | apply shrink_or | apply shrink_inside | apply shrink_unless
    | apply shrink_some | apply shrink_none ].
Lemma shrink_go block fuel : forall n, shrinks (go block fuel n).
Proof.
  induction fuel as [|fuel IH]; intros n; [apply shrink_none|].
  assert (E : forall p : parser, shrinks p -> (forall ts, go block (S fuel) n ts = p ts) -> shrinks (go block (S fuel) n)).
  { intros p P E ts r. rewrite E. exact (P _ _). }
  destruct n; (eapply E; [|intros ts; cbn [go]; reflexivity]);
    try (repeat (shrink || apply IH || match goal with |- shrinks (if ?b then _ else _) => destruct b end); fail).
  - intros ts r H. destruct (go block fuel (NPath false) ts) as [q|] eqn:E1; [|discriminate].
    pose proof (IH _ _ _ E1) as K1.
    assert (F : opt (inside Paren (go block fuel (NList (NType true))) ;;; go block fuel NReturn) q = Some r -> (bulk r <= bulk q)%N).
    { intros H1. refine ((_ : shrinks _) _ _ H1). repeat (shrink || apply IH). }
    destruct (rev (upto ts q)) as [|[| | |] l]; try (specialize (F H); lia). injection H as <-. exact K1.
  - intros ts r H. destruct (group Brace ts) as [[g q]|] eqn:E1; [|discriminate]. destruct (block g); [|discriminate].
    injection H as <-. exact (shrink_group _ _ _ _ E1).
Qed.

Lemma whole_same f ts r : whole f ts = Some r -> r = ts.
Proof. unfold whole. destruct (all f ts); [|discriminate]. intros H; injection H as <-. reflexivity. Qed.
Lemma segments_short fuel : forall ts, (sum (map (fun x => 2 + long x) (segments fuel ts)) <= 2 * bulk ts)%N.
Proof.
  induction fuel as [|fuel IH]; intros ts; [cbn; lia|]. cbn [segments].
  assert (C : forall ts, (sum (map (fun x => 2 + long x) (match op "::" ts with Some r => segments fuel r | None => [] end)) <= 2 * bulk ts)%N).
  { intros l. destruct (op "::" l) as [q|] eqn:E; [|cbn; lia]. apply shrink_op in E. specialize (IH q). lia. }
  destruct ts as [|[x| | |] r]; try (match goal with |- (_ <= 2 * bulk ?l)%N => exact (C l) end).
  set (r1 := match (opt (op "::") ;;; ch "<" ;;; nt_ NAngle) r with Some r' => r' | None => r end). cbv zeta. cbn [map].
  rewrite sum_cons, bulk_cons. cbn [letters]. assert (H : (bulk r1 <= bulk r)%N).
  { unfold r1. destruct ((opt (op "::") ;;; ch "<" ;;; nt_ NAngle) r) as [q|] eqn:E; [|lia]. exact (shrink_then _ _ (shrink_opt _ (shrink_op _)) (shrink_then _ _ (shrink_ch _) (shrink_go _ _ _)) _ _ E). }
  eapply N.le_trans; [apply N.add_le_mono_l, C|]. lia.
Qed.

(** ** Printing *)
Lemma escape_short x : (long (escape x) <= 2 * long x)%N.
Proof.
  induction x as [|c x IH]; [cbn; lia|]. cbn [escape]. rewrite long_app, long_cons.
  assert (long (if N.eqb c 34 || N.eqb c 92 then [92%N; c] else if N.eqb c 10 then txt "\n" else if N.eqb c 9 then txt "\t" else if N.eqb c 13 then txt "\r" else [c]) <= 2)%N.
  { destruct (N.eqb c 34 || N.eqb c 92)%bool; [cbn; lia|]. destruct (N.eqb c 10); [cbn; lia|]. destruct (N.eqb c 9); [cbn; lia|].
    destruct (N.eqb c 13); cbn; lia. }
  eapply N.le_trans; [apply N.add_le_mono; [eassumption|exact IH]|]. lia.
Qed.
Lemma display_short t : (long (display_tt t) + 1 <= 5 * letters t)%N.
Proof.
  induction t as [x|c j|[v p|d r|r]|d ts IH] using tt_ind'; cbn [display_tt letters].
  - lia.
  - rewrite long_cons, long_nil. lia.
  - destruct p as [|p0 p]; [rewrite !long_app, !long_cons, !long_nil; pose proof (escape_short v); lia|rewrite !long_cons; lia].
  - lia.
  - lia.
  - set (inner := (fix go (l : list tt) : str := match l with [] => [] | [x] => display_tt x | x :: r => display_tt x ++ (match x with TPunct _ true => [] | _ => [32%N] end) ++ go r end)).
    assert (H : (long (inner ts) <= 5 * sum (map letters ts))%N).
    { clear d. induction IH as [|t ts Ht _ IHts]; [cbn; lia|]. cbn [map]. rewrite sum_cons. destruct ts as [|u ts]; cbn [map] in IHts |- *.
      - change (inner [t]) with (display_tt t). lia.
      - change (inner (t :: u :: ts)) with (display_tt t ++ gap t ++ inner (u :: ts)).
        rewrite !long_app. pose proof (gap_short t) as Hgap. lia. }
    assert (L : (long (match ts with [] => [] | _ => [32%N] end) <= 1)%N) by (destruct ts; cbn; lia).
    unfold str, chr in *. destruct d; rewrite ?long_app; change (long (txt "(")) with 1%N; change (long (txt ")")) with 1%N; change (long (txt "[")) with 1%N;
      change (long (txt "]")) with 1%N; change (long (txt "{ ")) with 2%N; change (long (txt "}")) with 1%N; lia.
Qed.
Lemma display_modest ts : (long (display ts) <= 5 * bulk ts)%N.
Proof.
  unfold display, bulk. induction ts as [|t ts IHts]; [cbn; lia|]. cbn [map]. rewrite sum_cons. pose proof (display_short t) as Ht.
  destruct ts as [|u ts]; cbn [map] in IHts |- *; [change (display_tt (TGroup NoDelim [t])) with (display_tt t); lia|].
  change (display_tt (TGroup NoDelim (t :: u :: ts))) with (display_tt t ++ gap t ++ display_tt (TGroup NoDelim (u :: ts))).
  rewrite !long_app. pose proof (gap_short t) as Hgap. lia.
Qed.

Ltac slia := unfold str, chr in *; lia.

(** ** heck *)
Definition total (l : list str) : N := sum (map long l).
Lemma total_cons x l : total (x :: l) = (long x + total l)%N.
Proof. unfold total. cbn [map]. apply sum_cons. Qed.
Lemma total_app a b : total (a ++ b) = (total a + total b)%N.
Proof. induction a as [|x a IH]; [reflexivity|]. cbn [app]. rewrite !total_cons, IH. slia. Qed.
Lemma long_rev {A} (l : list A) : long (rev l) = long l.
Proof. unfold long. rewrite rev_length. reflexivity. Qed.
Lemma words_short x : forall m here, let l := words_of m here x in
  (total l <= long here + long x)%N /\ Forall (fun w => (1 <= long w)%N) l.
Proof.
  assert (W : forall here : str, let l := match here with [] => [] | _ => [rev here] end in
    (total l <= long here)%N /\ Forall (fun w => (1 <= long w)%N) l).
  { intros [|c h]; cbn zeta; [split; [cbn; slia|constructor]|]. rewrite total_cons, long_rev. change (total []) with 0%N. split; [slia|].
    repeat constructor. rewrite long_rev, long_cons. slia. }
  cbn zeta in *. induction x as [|c x IH]; intros m here; cbn [words_of].
  - specialize (W here). rewrite long_nil. split; [slia|tauto].
  - destruct (W here) as [W1 W2]. rewrite long_cons. destruct (negb (is_alnum c)).
    + destruct (IH Boundary []) as [I1 I2]. rewrite total_app. rewrite long_nil in I1. split; [slia|]. apply Forall_app. auto.
    + destruct x as [|n x].
      * destruct (IH m (c :: here)) as [I1 I2]. rewrite long_cons in I1. split; [slia|exact I2].
      * set (m' := if is_lower c then Lowercase else if is_upper c then Uppercase else m).
        destruct (mode_eqb m' Lowercase && is_upper n).
        -- destruct (IH Boundary []) as [I1 I2]. rewrite total_cons, long_rev, long_cons. rewrite long_nil in I1. split; [slia|]. constructor; [|exact I2].
           rewrite long_rev, long_cons. slia.
        -- destruct (mode_eqb m Uppercase && is_upper c && is_lower n).
           ++ destruct (IH Boundary [c]) as [I1 I2]. rewrite total_app. rewrite long_cons, long_nil in I1. split; [slia|]. apply Forall_app. auto.
           ++ destruct (IH m' (c :: here)) as [I1 I2]. rewrite long_cons in I1. split; [slia|exact I2].
Qed.
Lemma words_total x : (total (words_of Boundary [] x) <= long x)%N.
Proof. exact (proj1 (words_short x Boundary [])). Qed.
Lemma capitalize_long x : long (capitalize x) = long x.
Proof. destruct x as [|c x]; [reflexivity|]. cbn [capitalize]. rewrite !long_cons, map_long. reflexivity. Qed.
Lemma capitals_long l : long (List.concat (map capitalize l)) = total l.
Proof. induction l as [|x l IH]; [reflexivity|]. cbn [map List.concat]. rewrite long_app, total_cons, IH, capitalize_long. reflexivity. Qed.
Lemma pascal_modest x : (long (heck_pascal x) <= long x)%N.
Proof. unfold heck_pascal. rewrite capitals_long. apply words_total. Qed.
Lemma camel_modest x : (long (heck_camel x) <= long x)%N.
Proof.
  unfold heck_camel. pose proof (words_total x) as H. destruct (words_of Boundary [] x) as [|w l]; [cbn; slia|].
  rewrite long_app, map_long, capitals_long. rewrite total_cons in H. exact H.
Qed.
Lemma join_short l : Forall (fun w => (1 <= long w)%N) l -> (long (join (txt "_") (map (map low) l)) <= 2 * total l)%N.
Proof.
  induction 1 as [|w l Hw _ IH]; [cbn; slia|]. rewrite total_cons. destruct l as [|v l].
  - cbn [map join]. rewrite map_long. slia.
  - change (join (txt "_") (map (map low) (w :: v :: l))) with (map low w ++ txt "_" ++ join (txt "_") (map (map low) (v :: l))).
    rewrite !long_app, map_long. change (long (txt "_")) with 1%N. slia.
Qed.
Lemma snake_modest x : (long (heck_snake x) <= 2 * long x)%N.
Proof. unfold heck_snake. destruct (words_short x Boundary []) as [H1 H2]. rewrite long_nil in H1. pose proof (join_short _ H2). slia. Qed.

(** ** The lexer *)
Definition text (l : lexeme) : N :=
  match l with
  | LTok (TIdent x) => long x
  | LTok (TLit (LInt d r)) => (long d + long r)%N
  | _ => 0%N
  end.
Definition texts (l : list lexeme) : N := sum (map text l).
Lemma texts_app a b : texts (a ++ b) = (texts a + texts b)%N.
Proof. unfold texts. rewrite map_app. apply sum_app. Qed.
Lemma taken f x a b : take_while f x = (a, b) -> (long a + long b = long x)%N.
Proof.
  revert a b. induction x as [|c x IH]; intros a b H; cbn [take_while] in H; [injection H as <- <-; reflexivity|].
  destruct (f c); [|injection H as <- <-; rewrite long_nil; slia]. destruct (take_while f x) as [a' b']. injection H as <- <-.
  specialize (IH a' b' eq_refl). rewrite !long_cons. slia.
Qed.
Lemma stripped p : forall x r, strip p x = Some r -> (long p + long r = long x)%N.
Proof.
  induction p as [|a p IH]; intros x r H; cbn [strip] in H; [injection H as <-; rewrite long_nil; slia|].
  destruct x as [|b x]; [discriminate|]. destruct (N.eqb a b); [|discriminate]. apply IH in H. rewrite !long_cons. slia.
Qed.
Lemma body_left x : forall v r, string_body x = Some (v, r) -> (long r <= long x)%N.
Proof.
  assert (H : forall n x v r, List.length x <= n -> string_body x = Some (v, r) -> (long r <= long x)%N).
  { induction n as [|n IH]; intros [|c y] v r Hn H; try discriminate H; [cbn in Hn; slia|]. cbn [string_body] in H. rewrite long_cons.
    destruct (N.eqb c 34); [injection H as <- <-; slia|]. destruct (N.eqb c 92).
    - destruct y as [|e y]; [discriminate|]. destruct (string_body y) as [[v' r']|] eqn:E; [|discriminate]. injection H as <- <-.
      apply IH in E; [|cbn in Hn; slia]. rewrite long_cons. slia.
    - destruct (string_body y) as [[v' r']|] eqn:E; [|discriminate]. injection H as <- <-. apply IH in E; [slia|cbn in Hn; slia]. }
  intros v r. exact (H _ x v r (le_n _)).
Qed.
Lemma raw_left cl x : forall v r, raw_body cl x = Some (v, r) -> (long r <= long x)%N.
Proof.
  induction x as [|c x IH]; intros v r H; cbn [raw_body] in H.
  - destruct (strip cl []) as [q|] eqn:E; [|discriminate]. injection H as <- <-. apply stripped in E. slia.
  - destruct (strip cl (c :: x)) as [q|] eqn:E; [injection H as <- <-; apply stripped in E; slia|].
    destruct (raw_body cl x) as [[v' r']|]; [|discriminate]. injection H as <- <-. specialize (IH _ _ eq_refl). rewrite long_cons. slia.
Qed.
Lemma operator_left ops x o r : find_operator ops x = Some (o, r) -> (long r <= long x)%N.
Proof.
  induction ops as [|p ops IH]; cbn [find_operator]; [discriminate|]. destruct (strip p x) as [q|] eqn:E; [|exact IH].
  intros H; injection H as <- <-. apply stripped in E. slia.
Qed.
Lemma op_texts o : texts (map LTok (op_tokens o)) = 0%N.
Proof.
  induction o as [|c o IH]; [reflexivity|]. destruct o as [|c' o]; [reflexivity|].
  change (op_tokens (c :: c' :: o)) with (TPunct c true :: op_tokens (c' :: o)). cbn [map]. unfold texts in *. cbn [map text]. rewrite sum_cons, IH. reflexivity.
Qed.
(** A number in base 16 or less has at most two decimal digits for each of its own. *)
Lemma digits_below base x : (2 <= base <= 16)%N -> forall acc k, (acc < 100 ^ k)%N -> (digits_in base acc x < 100 ^ (k + long x))%N.
Proof.
  intros Hb. induction x as [|c x IH]; intros acc k Ha; cbn [digits_in]; [rewrite long_nil, N.add_0_r; exact Ha|]. rewrite long_cons.
  assert (Hm : (acc < 100 ^ (k + (1 + long x)))%N) by (eapply N.lt_le_trans; [exact Ha|apply N.pow_le_mono_r; slia]).
  replace (k + (1 + long x))%N with (k + 1 + long x)%N in * by slia.
  destruct (N.eqb c 95). { apply IH. eapply N.lt_le_trans; [exact Ha|apply N.pow_le_mono_r; slia]. }
  destruct (N.ltb_spec (digit_value c) base) as [Hd|_]; [|exact Hm]. apply IH. rewrite N.pow_add_r. change (100 ^ 1)%N with 100%N. nia.
Qed.
Lemma decimal_digits base x : (2 <= base <= 16)%N -> (long (decimal (digits_in base 0 x)) <= 2 * long x + 1)%N.
Proof.
  intros Hb. pose proof (digits_below base x Hb 0 0 ltac:(cbn; slia)) as H. rewrite N.add_0_l in H.
  unfold decimal. eapply N.le_trans; [apply (decimal_short _ _ _ (S (2 * List.length x)))|].
  - eapply N.lt_le_trans; [exact H|]. change 100%N with (10 ^ 2)%N. rewrite <- N.pow_mul_r. apply N.pow_le_mono_r; [slia|]. unfold long. slia.
  - slia.
  - rewrite long_nil. unfold long. slia.
Qed.
Lemma filter_short {A} f (l : list A) : (long (filter f l) <= long l)%N.
Proof. induction l as [|x l IH]; [cbn; slia|]. cbn [filter]. destruct (f x); rewrite ?long_cons; slia. Qed.
Lemma number_left x t r : number x = (t, r) -> (text (LTok t) + 3 * long r <= 3 * long x)%N.
Proof.
  unfold number. destruct (take_while ident_continue x) as [a q] eqn:E. apply taken in E.
  set (int := match strip (txt "0x") a, strip (txt "0b") a, strip (txt "0o") a with Some _, _, _ => _ | _, _, _ => _ end).
  assert (H : (text (LTok (TLit int)) <= 3 * long a)%N).
  { unfold int. destruct (strip (txt "0x") a) as [h|] eqn:E1.
    - apply stripped in E1. change (long (txt "0x")) with 2%N in E1. pose proof (decimal_digits 16 h ltac:(slia)). cbn [text]. slia.
    - destruct (strip (txt "0b") a) as [h|] eqn:E2.
      + apply stripped in E2. change (long (txt "0b")) with 2%N in E2. pose proof (decimal_digits 2 h ltac:(slia)). cbn [text]. slia.
      + destruct (strip (txt "0o") a) as [h|] eqn:E3.
        * apply stripped in E3. change (long (txt "0o")) with 2%N in E3. pose proof (decimal_digits 8 h ltac:(slia)). cbn [text]. slia.
        * cbn [text]. destruct (take_while (fun c => is_digit c || N.eqb c 95)%bool a) as [b b'] eqn:E4. apply taken in E4. cbn [fst].
          pose proof (filter_short is_digit b). slia. }
  clearbody int. assert (D : (TLit int, q) = (t, r) -> (text (LTok t) + 3 * long r <= 3 * long x)%N) by (intros K; injection K as <- <-; slia).
  destruct q as [|p [|c q]]; try exact D. destruct (N.eqb p 46 && is_digit c); [|exact D].
  destruct (take_while ident_continue (c :: q)) as [f q'] eqn:E4. apply taken in E4. intros K; injection K as <- <-. cbn [text].
  rewrite !long_cons in *. slia.
Qed.
Lemma texts_nil : texts [] = 0%N.
Proof. reflexivity. Qed.
Lemma texts_one d : texts [d] = text d.
Proof. unfold texts. cbn [map]. rewrite sum_cons. change (sum []) with 0%N. apply N.add_0_r. Qed.
Lemma next_left x l r : next x = Some (l, r) -> (texts l + 3 * long r <= 3 * long x)%N.
Proof.
  intros H. destruct x as [|c x]; [discriminate|]. cbn [next] in H.
  assert (One : forall d : lexeme, text d = 0%N -> Some ([d], x) = Some (l, r) -> (texts l + 3 * long r <= 3 * long (c :: x))%N).
  { intros d Hd K; injection K as <- <-. rewrite texts_one, Hd, long_cons. slia. }
  destruct (is_space c); [injection H as <- <-; rewrite texts_nil, long_cons; slia|].
  do 6 (match type of H with (if ?b then _ else _) = _ => destruct b; [refine (One _ _ H); reflexivity|] end).
  destruct (N.eqb c 34).
  { destruct (string_body x) as [[v q]|] eqn:E; [|discriminate]. injection H as <- <-. apply body_left in E. rewrite texts_one, long_cons. cbn [text]. slia. }
  destruct (strip (txt "///") (c :: x)) as [q|] eqn:E1.
  { destruct (take_while not_newline q) as [v q'] eqn:E. injection H as <- <-. apply taken in E. apply stripped in E1. change (long (txt "///")) with 3%N in E1.
    unfold texts. cbn [map text p1 i]. rewrite !sum_cons. change (long (txt "doc")) with 3%N. cbn [sum fold_right]. slia. }
  destruct (strip (txt "//") (c :: x)) as [q|] eqn:E2.
  { injection H as <- <-. apply stripped in E2. destruct (take_while not_newline q) as [v q'] eqn:E. apply taken in E. cbn [snd]. rewrite texts_nil. slia. }
  destruct (strip (txt "r""") (c :: x)) as [q|] eqn:E3.
  { apply stripped in E3. destruct (raw_body _ q) as [[v q']|] eqn:E; [|discriminate]. injection H as <- <-. apply raw_left in E. rewrite texts_one. cbn [text]. slia. }
  destruct (strip (txt "r#""") (c :: x)) as [q|] eqn:E4.
  { apply stripped in E4. destruct (raw_body _ q) as [[v q']|] eqn:E; [|discriminate]. injection H as <- <-. apply raw_left in E. rewrite texts_one. cbn [text]. slia. }
  destruct (strip (txt "r#") (c :: x)) as [q|] eqn:E5.
  { apply stripped in E5. destruct (take_while ident_continue q) as [a q'] eqn:E. injection H as <- <-. apply taken in E.
    rewrite texts_one. cbn [text]. rewrite !long_cons. rewrite !long_cons in E5. change (long (txt "r#")) with 2%N in *. slia. }
  destruct (ident_start c).
  { destruct (take_while ident_continue (c :: x)) as [a q'] eqn:E. injection H as <- <-. apply taken in E.
    rewrite texts_one. cbn [text]. slia. }
  destruct (is_digit c).
  { destruct (number (c :: x)) as [t q] eqn:E. injection H as <- <-. apply number_left in E. rewrite texts_one. slia. }
  destruct (N.eqb c 39).
  { assert (L : forall y, (let (name, r'') := take_while ident_continue y in Some ([LTok (TPunct c true); LTok (TIdent name)], r'')) = Some (l, r) ->
      (long y <= long x)%N -> (texts l + 3 * long r <= 3 * long (c :: x))%N).
    { intros y K Hy. destruct (take_while ident_continue y) as [a q'] eqn:E. injection K as <- <-. apply taken in E.
      unfold texts. cbn [map text]. rewrite !sum_cons, long_cons. cbn [sum fold_right]. slia. }
    assert (Lit : Some ([LTok (TLit (LOther (firstn 3 (c :: x))))], skipn 3 (c :: x)) = Some (l, r) -> (texts l + 3 * long r <= 3 * long (c :: x))%N).
    { intros K; injection K as <- <-. rewrite texts_one. cbn [text]. destruct x as [|c1 [|c2 x]]; rewrite ?long_cons, ?long_nil; slia. }
    destruct (nth_error x 1) as [n|]; [|exact (L x H (N.le_refl _))].
    repeat (match type of H with (match ?n with _ => _ end) = _ => is_var n; destruct n end; try exact (L x H (N.le_refl _)); try exact (Lit H)). }
  destruct (find_operator operators (c :: x)) as [[o q]|] eqn:E6.
  - injection H as <- <-. rewrite op_texts. apply operator_left in E6. slia.
  - refine (One _ _ H). reflexivity.
Qed.
Lemma lexemes_short fuel : forall x l, lexemes fuel x = Some l -> (texts l <= 3 * long x)%N.
Proof.
  induction fuel as [|fuel IH]; intros x l H.
  - destruct x; [injection H as <-; cbn; slia|discriminate].
  - destruct x as [|c x]; [injection H as <-; cbn; slia|]. cbn [lexemes] in H. destruct (next (c :: x)) as [[a r]|] eqn:E; [|discriminate].
    destruct (lexemes fuel r) as [b|] eqn:E1; [|discriminate]. injection H as <-. apply IH in E1. apply next_left in E. rewrite texts_app. slia.
Qed.
Definition atom_short (b : N) (t : tt) : Prop := (text (LTok t) <= b)%N.
Lemma trees_short b l : forall here stack ts, trees l here stack = Some ts -> (texts l <= b)%N ->
  Forall (atom_short b) here -> Forall (fun s => Forall (atom_short b) (snd s)) stack -> Forall (atom_short b) ts.
Proof.
  induction l as [|x l IH]; intros here stack ts H Hb Hh Hs; cbn [trees] in H.
  - destruct stack; [|discriminate]. injection H as <-. apply Forall_rev. exact Hh.
  - unfold texts in Hb. cbn [map] in Hb. rewrite sum_cons in Hb. fold (texts l) in Hb. destruct x as [t|d|d].
    + apply IH in H; auto; [slia|]. constructor; [unfold atom_short; slia|exact Hh].
    + apply IH in H; auto.
    + destruct stack as [|[d' outer] stack]; [discriminate|]. destruct (delim_eqb d d'); [|discriminate]. inversion Hs; subst.
      apply IH in H; auto. constructor; [unfold atom_short; cbn; slia|assumption].
Qed.
Lemma lexed_short x t : lex_text x = Some [t] -> (text (LTok t) <= 3 * long x)%N.
Proof.
  unfold lex_text. destruct (lexemes _ x) as [l|] eqn:E; [|discriminate]. apply lexemes_short in E. intros H.
  pose proof (trees_short _ _ _ _ _ H E (Forall_nil _) (Forall_nil _)) as F. inversion F; assumption.
Qed.

Lemma rust_modest : modest 5 rust.
Proof.
  constructor; cbn [rust to_string upper lower to_snake_case to_camel_case to_pascal_case parse_ident parse_path parse_type Values.parse_expr
    parse_lit_str parse_lit_int parse_str_ident lit_int_new hash64 path_segments].
  - slia.
  - exact display_modest.
  - intros x. rewrite map_long. slia.
  - intros x. rewrite map_long. slia.
  - intros x. pose proof (snake_modest x). slia.
  - intros x. pose proof (camel_modest x). slia.
  - intros x. pose proof (pascal_modest x). slia.
  - intros [|[y| | |] [|]] x; try discriminate. destruct (plain_ident y); [|discriminate]. intros H; injection H as <-.
    rewrite bulk_cons. cbn [letters]. slia.
  - intros ts r H. apply whole_same in H as ->. slia.
  - intros ts r H. apply whole_same in H as ->. slia.
  - intros ts r H. apply whole_same in H as ->. slia.
  - intros ts v p H. pose proof (modest_lit_str 3 ascii ascii_modest ts v p H). slia.
  - intros ts d r H. pose proof (modest_lit_int 3 ascii ascii_modest ts d r H). slia.
  - intros x y. destruct (lex_text x) as [[|[z| | |] [|]]|] eqn:E; try discriminate. destruct (plain_ident z); [|discriminate].
    intros H; injection H as <-. apply lexed_short in E. cbn [text] in E. slia.
  - intros x d r. unfold literal_text. destruct (lex_text x) as [[|[| |[|d0 r0|]|] [|]]|] eqn:E; try discriminate.
    intros H; injection H as <- <-. apply lexed_short in E. cbn [text] in E. slia.
  - intros seed x. apply sip13_below.
  - intros ts. pose proof (segments_short (S (List.length ts)) ts). slia.
Qed.
