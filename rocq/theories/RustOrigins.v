(** The grammar of RustGrammar.v puts no identifier into a node that was not among the tokens
    read, for C80. *)
From Coq Require Import String Lia.
From Verif Require Import Base BaseFacts Token Types Values Item Interpreter Parse SpecOrigins OriginProofs Concrete ConcreteParse
  RustLexer RustText RustGrammar RustInstance.
Open Scope list_scope.

Local Opaque depth.

Section Over.
Context (Q : str -> Prop).
Notation over := (over Q).

Definition keeping (f : parser) : Prop := forall ts r, f ts = Some r -> over ts -> over r.
(** A parser of something that prints as [p]. *)
Definition reading {A} (p : A -> list tt) (f : list tt -> option (A * list tt)) : Prop :=
  forall ts x r, f ts = Some (x, r) -> over ts -> over (p x) /\ over r.
Definition reading0 {A} (p : A -> list tt) (f : list tt -> option (list A)) : Prop :=
  forall ts l, f ts = Some l -> over ts -> over (flat_map p l).

Lemma cons_over t ts : over (t :: ts) -> over [t] /\ over ts.
Proof. apply over_cons. Qed.
Lemma tail_over t ts : over (t :: ts) -> over ts.
Proof. intros H. apply over_cons in H. tauto. Qed.
Lemma upto_over ts r : over ts -> over (upto ts r).
Proof. apply over_firstn. Qed.

Lemma keep_word x : keeping (word x).
Proof.
  intros [|[y| | |] r] r' H K; try discriminate H. cbn in H. destruct (str_eqb (txt x) y); [|discriminate].
  injection H as <-. exact (tail_over _ _ K).
Qed.
Lemma keep_one_of l : keeping (one_of l).
Proof.
  intros [|[y| | |] r] r' H K; try discriminate H. cbn [one_of] in H. destruct (existsb _ _); [|discriminate].
  injection H as <-. exact (tail_over _ _ K).
Qed.
Lemma keep_ident : keeping ident.
Proof.
  intros [|[y| | |] r] r' H K; try discriminate H. cbn [ident] in H. destruct (plain_ident y); [|discriminate].
  injection H as <-. exact (tail_over _ _ K).
Qed.
Lemma keep_segment : keeping (fun ts => match ts with TIdent x :: r => if segment_ident x then Some r else None | _ => None end).
Proof.
  intros [|[y| | |] r] r' H K; try discriminate H. destruct (segment_ident y); [|discriminate].
  injection H as <-. exact (tail_over _ _ K).
Qed.
Lemma keep_ch x : keeping (ch x).
Proof.
  intros [|[|c j| |] q] r H K; try discriminate H. cbn [ch] in H. destruct (N.eqb _ _); [|discriminate].
  injection H as <-. exact (tail_over _ _ K).
Qed.
Lemma keep_op_chars x : keeping (op_chars x).
Proof.
  induction x as [|c x IH]; intros ts r H K; [cbn in H; discriminate H || (injection H as <-; exact K)|].
  destruct ts as [|[y|d j|l|d g] q]; cbn [op_chars] in H; try (destruct x; discriminate).
  apply tail_over in K. destruct x.
  - destruct (_ && _); [|discriminate]. injection H as <-. exact K.
  - destruct (_ && _); [|discriminate]. exact (IH _ _ H K).
Qed.
Lemma keep_op x : keeping (op x).
Proof. apply keep_op_chars. Qed.
Lemma keep_lifetime : keeping lifetime.
Proof.
  intros ts r H K. destruct ts as [|[|c []| |] [|[y| | |] q]]; try discriminate H. cbn in H. destruct (N.eqb c 39); [|discriminate].
  injection H as <-. exact (tail_over _ _ (tail_over _ _ K)).
Qed.
Lemma read_group d : reading (fun g => g) (group d).
Proof.
  intros ts g r H K. destruct ts as [|[| | |d' g'] q]; try discriminate H. cbn [group] in H. destruct (delim_eqb d d'); [|discriminate].
  injection H as <- <-. apply cons_over in K as [K1 K2]. apply over_group in K1. auto.
Qed.
Lemma keep_then f g : keeping f -> keeping g -> keeping (f ;;; g).
Proof. intros F G ts r. unfold then_. destruct (f ts) as [q|] eqn:E; [|discriminate]. intros H K. exact (G _ _ H (F _ _ E K)). Qed.
Lemma keep_or f g : keeping f -> keeping g -> keeping (f <|> g).
Proof. intros F G ts r. unfold or_. destruct (f ts) as [q|] eqn:E; [intros H; injection H as <-; exact (F _ _ E)|exact (G _ _)]. Qed.
Lemma keep_some : keeping Some.
Proof. intros ts r H; injection H as <-; auto. Qed.
Lemma keep_none : keeping (fun _ => None).
Proof. intros ts r H; discriminate. Qed.
Lemma keep_opt f : keeping f -> keeping (opt f).
Proof. intros F. apply keep_or; [exact F|apply keep_some]. Qed.
Lemma keep_inside d f : keeping (inside d f).
Proof.
  intros ts r. unfold inside. destruct (group d ts) as [[g q]|] eqn:E; [|discriminate]. destruct (all f g); [|discriminate].
  intros H K. injection H as <-. apply (read_group d _ _ _ E K).
Qed.
Lemma keep_any_group : keeping any_group.
Proof. intros [|[| | |] q] r H K; try discriminate H. injection H as <-. exact (tail_over _ _ K). Qed.
Lemma keep_literal : keeping literal.
Proof. intros [|[| | |] q] r H K; try discriminate H. injection H as <-. exact (tail_over _ _ K). Qed.
Lemma keep_string_lit : keeping string_lit.
Proof. intros [|[| |[]|] q] r H K; try discriminate H. injection H as <-. exact (tail_over _ _ K). Qed.
Lemma keep_rest : keeping rest_.
Proof. intros ts r H K. injection H as <-. constructor. Qed.
Lemma keep_unless f : keeping (unless f).
Proof. intros ts r. unfold unless. destruct (f ts); [discriminate|]. intros H; injection H as <-; auto. Qed.
Lemma keep_at_end : keeping at_end.
Proof. intros [|] r H K; [|discriminate]. injection H as <-. constructor. Qed.
Lemma keep_binary_operator : keeping binary_operator.
Proof.
  unfold binary_operator. induction binary_operators as [|o l IH]; [apply keep_none|].
  cbn [fold_right]. apply keep_or; [apply keep_op|exact IH].
Qed.
Lemma take_attrs_over : forall n ts a r, List.length ts <= n -> take_attrs ts = (a, r) -> over ts ->
  over (attrs_tokens a) /\ over r /\ outer a = a /\ inner a = [].
Proof.
  induction n as [|n IH]; intros ts a r Hn H K.
  - destruct ts; [|cbn in Hn; inversion Hn]. injection H as <- <-. repeat split; constructor.
  - destruct ts as [|t ts]; [injection H as <- <-; repeat split; constructor|].
    assert (D : ([], t :: ts) = (a, r) -> over (attrs_tokens a) /\ over r /\ outer a = a /\ inner a = []).
    { intros E; injection E as <- <-. repeat split; [constructor|exact K]. }
    destruct t as [|c j| |]; try exact (D H). destruct ts as [|[| | |[] m] q]; try exact (D H).
    cbn [take_attrs] in H. destruct (N.eqb c 35) eqn:Ec; [|exact (D H)].
    destruct (take_attrs q) as [a' r'] eqn:E. injection H as <- <-.
    apply tail_over, cons_over in K as [K1 K2]. apply over_group in K1.
    assert (Hl : List.length q <= n) by (cbn in Hn; lia).
    destruct (IH q a' r' Hl E K2) as (H1 & H2 & H3 & H4). repeat split; [|exact H2| |exact H4].
    + cbn [attrs_tokens flat_map]. apply over_app. split; [|exact H1]. unfold attr_tokens. cbn [is_inner meta app].
      apply over_cons. split; [constructor|apply over_group; exact K1].
    + cbn [outer filter is_inner negb]. f_equal. exact H3.
Qed.
Lemma take_inner_over : forall n ts a r, List.length ts <= n -> take_inner_attrs ts = (a, r) -> over ts ->
  over (attrs_tokens a) /\ over r /\ outer a = [] /\ inner a = a.
Proof.
  induction n as [|n IH]; intros ts a r Hn H K.
  - destruct ts; [|cbn in Hn; inversion Hn]. injection H as <- <-. repeat split; constructor.
  - destruct ts as [|t ts]; [injection H as <- <-; repeat split; constructor|].
    assert (D : ([], t :: ts) = (a, r) -> over (attrs_tokens a) /\ over r /\ outer a = [] /\ inner a = a).
    { intros E; injection E as <- <-. repeat split; [constructor|exact K]. }
    destruct t as [|c j| |]; try exact (D H). destruct ts as [|[|c' j'| |] ts]; try exact (D H).
    destruct ts as [|[| | |[] m] q]; try exact (D H).
    cbn [take_inner_attrs] in H. destruct (N.eqb c 35 && N.eqb c' 33) eqn:Ec; [|exact (D H)].
    destruct (take_inner_attrs q) as [a' r'] eqn:E. injection H as <- <-.
    apply tail_over, tail_over, cons_over in K as [K1 K2]. apply over_group in K1.
    assert (Hl : List.length q <= n) by (cbn in Hn; lia).
    destruct (IH q a' r' Hl E K2) as (H1 & H2 & H3 & H4). repeat split; [|exact H2|exact H3|].
    + cbn [attrs_tokens flat_map]. apply over_app. split; [|exact H1]. unfold attr_tokens. cbn [is_inner meta app].
      do 2 (apply over_cons; split; [constructor|]). apply over_group; exact K1.
    + cbn [inner filter is_inner]. f_equal. exact H4.
Qed.
Lemma attrs_read ts a r : take_attrs ts = (a, r) -> over ts -> over (attrs_tokens a) /\ over r /\ outer a = a /\ inner a = [].
Proof. exact (take_attrs_over _ ts a r (le_n _)). Qed.
Lemma inner_read ts a r : take_inner_attrs ts = (a, r) -> over ts -> over (attrs_tokens a) /\ over r /\ outer a = [] /\ inner a = a.
Proof. exact (take_inner_over _ ts a r (le_n _)). Qed.
Lemma keep_attrs : keeping attrs_.
Proof.
  intros ts r H K. injection H as <-. destruct (take_attrs ts) as [a r] eqn:E. exact (proj1 (proj2 (attrs_read _ _ _ E K))).
Qed.
Lemma keep_vis : keeping vis_.
Proof.
  apply keep_opt, keep_then; [apply keep_word|]. apply keep_opt. intros ts r H K.
  destruct (group Paren ts) as [[g q]|] eqn:E; [|discriminate]. destruct (one_of _ g); [|discriminate].
  injection H as <-. exact (proj2 (read_group _ _ _ _ E K)).
Qed.

Ltac keeps :=
  repeat first
    [ assumption
    | apply keep_word | apply keep_one_of | apply keep_ident | apply keep_segment | apply keep_ch | apply keep_op
    | apply keep_lifetime | apply keep_any_group | apply keep_literal | apply keep_string_lit | apply keep_rest
    | apply keep_at_end | apply keep_binary_operator | apply keep_attrs | apply keep_vis
    | apply keep_opt | apply keep_then | apply keep_or | apply keep_inside | apply keep_unless
    | apply keep_some | apply keep_none ].

Lemma keep_go block fuel : forall n, keeping (go block fuel n).
Proof.
  induction fuel as [|fuel IH]; intros n; [apply keep_none|].
  assert (E : forall p : parser, keeping p -> (forall ts, go block (S fuel) n ts = p ts) -> keeping (go block (S fuel) n)).
  { intros p P E ts r. rewrite E. exact (P _ _). }
  destruct n; (eapply E; [|intros ts; cbn [go]; reflexivity]);
    try (repeat (keeps || apply IH || match goal with |- keeping (if ?b then _ else _) => destruct b end); fail).
  - intros ts r H K. destruct (go block fuel (NPath false) ts) as [q|] eqn:E1; [|discriminate].
    pose proof (IH _ _ _ E1 K) as K1.
    assert (F : opt (inside Paren (go block fuel (NList (NType true))) ;;; go block fuel NReturn) q = Some r -> over r).
    { intros H1. refine ((_ : keeping _) _ _ H1 K1). repeat (keeps || apply IH). }
    destruct (rev (upto ts q)) as [|[| | |] l]; try exact (F H). injection H as <-. exact K1.
  - intros ts r H K. destruct (group Brace ts) as [[g q]|] eqn:E1; [|discriminate]. destruct (block g); [|discriminate].
    injection H as <-. exact (proj2 (read_group _ _ _ _ E1 K)).
Qed.

Lemma punctuated_over {A} (p : A -> list tt) s t l : over [s] -> over (flat_map p l) -> over (punctuated p s t l).
Proof.
  intros Hs. induction l as [|x l IH]; [auto|]. cbn [flat_map]. intros H. apply over_app in H as [H1 H2].
  destruct l as [|y l].
  - cbn. apply over_app. split; [exact H1|]. destruct t; [exact Hs|constructor].
  - change (punctuated p s t (x :: y :: l)) with (p x ++ s :: punctuated p s t (y :: l)).
    apply over_app. split; [exact H1|]. apply over_cons. auto.
Qed.
Lemma comma_over : over [sym ","].
Proof. constructor. Qed.
Lemma separated_over {A} (p : A -> list tt) f : reading p f -> forall n ts l t, separated f n ts = Some (l, t) -> over ts -> over (flat_map p l).
Proof.
  intros F. induction n as [|n IH]; intros ts l t H K.
  - destruct ts; [|discriminate]. injection H as <- <-. constructor.
  - destruct ts as [|u ts]; [injection H as <- <-; constructor|]. cbn [separated] in H.
    destruct (f (u :: ts)) as [[x r]|] eqn:E; [|discriminate]. destruct (F _ _ _ E K) as [K1 K2].
    assert (S1 : over (flat_map p [x])) by (cbn; rewrite app_nil_r; exact K1).
    destruct r as [|v r]; [injection H as <- <-; exact S1|].
    destruct (op "," (v :: r)) as [q|] eqn:E1; [|discriminate]. pose proof (keep_op _ _ _ E1 K2) as K3.
    destruct q as [|w q]; [injection H as <- <-; exact S1|].
    destruct (separated f n (w :: q)) as [[l' t']|] eqn:E2; [|discriminate]. injection H as <- <-.
    cbn [flat_map]. apply over_app. split; [exact K1|exact (IH _ _ _ E2 K3)].
Qed.
Lemma sequence_over {A} (p : A -> list tt) f : reading p f -> forall n, reading0 p (sequence f n).
Proof.
  intros F. induction n as [|n IH]; intros ts l H K.
  - destruct ts; [|discriminate]. injection H as <-. constructor.
  - destruct ts as [|u ts]; [injection H as <-; constructor|]. cbn [sequence] in H.
    destruct (f (u :: ts)) as [[x r]|] eqn:E; [|discriminate]. destruct (F _ _ _ E K) as [K1 K2].
    destruct (sequence f n r) as [l'|] eqn:E2; [|discriminate]. injection H as <-.
    cbn [flat_map]. apply over_app. split; [exact K1|exact (IH _ _ E2 K2)].
Qed.
Lemma span_over f ts a t b : span f ts = Some (a, t, b) -> over ts -> over a /\ over [t] /\ over b.
Proof.
  revert a t b. induction ts as [|u ts IH]; intros a t b H K; [discriminate|]. cbn [span] in H.
  apply cons_over in K as [K1 K2]. destruct (f u).
  - injection H as <- <- <-. repeat split; [constructor|exact K1|exact K2].
  - destruct (span f ts) as [[[a' t'] b']|]; [|discriminate]. injection H as <- <- <-.
    destruct (IH _ _ _ eq_refl K2) as (H1 & H2 & H3). repeat split; [apply over_cons; auto|exact H2|exact H3].
Qed.
Lemma outer_app a b : outer (a ++ b) = outer a ++ outer b.
Proof. apply filter_app. Qed.
Lemma inner_app a b : inner (a ++ b) = inner a ++ inner b.
Proof. apply filter_app. Qed.

Section Items.
Context (g : nt -> parser) (stmts : list tt -> option (list stmt)) (items : list tt -> option (list item)).
Context (G : forall n, keeping (g n)) (S0 : reading0 stmt_tokens stmts) (I0 : reading0 item_tokens items).
Ltac keeps' := repeat (keeps || apply G).

Lemma field_read named : reading field_tokens (field_ g named).
Proof.
  intros ts x r H K. unfold field_ in H. destruct (take_attrs ts) as [a r0] eqn:Ea.
  destruct (attrs_read _ _ _ Ea K) as (A1 & A2 & _). destruct (vis_ r0) as [r1|] eqn:Ev; [|discriminate].
  pose proof (keep_vis _ _ Ev A2) as K1.
  assert (N : forall y r2, (if named then match r1 with TIdent x :: r => if plain_ident x then match op ":" r with Some r' => Some (Some x, r') | None => None end else None | _ => None end
     else Some (None, r1)) = Some (y, r2) -> over (match y with Some x => [TIdent x; sym ":"] | None => [] end) /\ over r2).
  { intros y r2 E. destruct named; [|injection E as <- <-; split; [constructor|exact K1]].
    destruct r1 as [|[z| | |] q]; try discriminate. destruct (plain_ident z); [|discriminate].
    destruct (op ":" q) as [q'|] eqn:Eo; [|discriminate]. injection E as <- <-. apply cons_over in K1 as [Kz Kq]. split.
    - apply over_cons. split; [exact Kz|constructor].
    - exact (keep_op _ _ _ Eo Kq). }
  destruct (if named then _ else _) as [[y r2]|]; [|discriminate]. destruct (N _ _ eq_refl) as [N1 N2].
  destruct (g (NType true) r2) as [r3|] eqn:Et; [|discriminate]. injection H as <- <-. split; [|exact (G _ _ _ Et N2)].
  unfold field_tokens. cbn [f_attrs f_vis f_ident f_ty]. apply over_app. split; [exact A1|]. apply over_app.
  split; [apply upto_over; exact A2|]. apply over_app. split; [exact N1|apply upto_over; exact N2].
Qed.
Lemma fields_read : reading fields_tokens (fields_ g).
Proof.
  intros ts x r H K. unfold fields_ in H.
  assert (D : Some (FUnit, ts) = Some (x, r) -> over (fields_tokens x) /\ over r).
  { intros E; injection E as <- <-. split; [constructor|exact K]. }
  destruct ts as [|[| | |[] l] q]; try exact (D H).
  - destruct (separated _ _ l) as [[l' t]|] eqn:E; [|discriminate]. injection H as <- <-. apply cons_over in K as [K1 K2].
    apply over_group in K1. split; [|exact K2]. cbn [fields_tokens]. apply over_group, punctuated_over; [apply comma_over|].
    exact (separated_over _ _ (field_read false) _ _ _ _ E K1).
  - destruct (separated _ _ l) as [[l' t]|] eqn:E; [|discriminate]. injection H as <- <-. apply cons_over in K as [K1 K2].
    apply over_group in K1. split; [|exact K2]. cbn [fields_tokens]. apply over_group, punctuated_over; [apply comma_over|].
    exact (separated_over _ _ (field_read true) _ _ _ _ E K1).
Qed.
Lemma variant_read : reading variant_tokens (variant_ g).
Proof.
  intros ts x r H K. unfold variant_ in H. destruct (take_attrs ts) as [a r0] eqn:Ea.
  destruct (attrs_read _ _ _ Ea K) as (A1 & A2 & _). destruct r0 as [|[y| | |] r1]; try discriminate.
  destruct (plain_ident y); [|discriminate]. apply cons_over in A2 as [Ky K1].
  destruct (fields_ g r1) as [[f r2]|] eqn:Ef; [|discriminate]. destruct (fields_read _ _ _ Ef K1) as [F1 F2].
  assert (D : forall d, over (match d with Some e => sym "=" :: e | None => [] end) ->
    over (variant_tokens {| v_attrs := a; v_ident := y; v_fields := f; v_disc := d |})).
  { intros d Hd. unfold variant_tokens. cbn [v_attrs v_ident v_fields v_disc]. apply over_app. split; [exact A1|].
    apply over_cons. split; [exact Ky|]. apply over_app. split; [exact F1|exact Hd]. }
  destruct (op "=" r2) as [r3|] eqn:Eo.
  - pose proof (keep_op _ _ _ Eo F2) as K3. destruct (g (NExpr true) r3) as [r4|] eqn:Ee; [|discriminate]. injection H as <- <-.
    split; [|exact (G _ _ _ Ee K3)]. apply D, over_cons. split; [constructor|apply upto_over; exact K3].
  - injection H as <- <-. split; [|exact F2]. apply D. constructor.
Qed.
Lemma function_read ts sig ia body r : function_ g stmts ts = Some (sig, ia, body, r) -> over ts ->
  over sig /\ over (attrs_tokens ia) /\ outer ia = [] /\ inner ia = ia /\ over (flat_map stmt_tokens body) /\ over r.
Proof.
  intros H K. unfold function_ in H. destruct (span is_brace ts) as [[[s t] q]|] eqn:E; [|discriminate].
  destruct (span_over _ _ _ _ _ E K) as (K1 & K2 & K3). destruct t as [| | |[] b]; try discriminate. apply over_group in K2.
  destruct (all (g NSig) s); [|discriminate]. destruct (take_inner_attrs b) as [ia' b'] eqn:Ei.
  destruct (inner_read _ _ _ Ei K2) as (I1 & I2 & I3 & I4). destruct (stmts b') as [l|] eqn:Es; [|discriminate].
  injection H as <- <- <- <-. pose proof (S0 _ _ Es I2). auto 10.
Qed.
Lemma keep_until_semicolon f : keeping (until_semicolon f).
Proof.
  intros ts r H K. unfold until_semicolon in H. destruct (span is_semicolon ts) as [[[a t] q]|] eqn:E; [|discriminate].
  destruct (all f a); [|discriminate]. injection H as <-. apply (span_over _ _ _ _ _ E K).
Qed.
Lemma keep_macro_call : keeping (macro_call g).
Proof.
  intros ts r H K. unfold macro_call in H.
  destruct ((g (NPath true) ;;; op "!" ;;; opt ident) ts) as [q|] eqn:E; [|discriminate].
  assert (K1 : over q) by (refine ((_ : keeping _) _ _ E K); keeps'). destruct q as [|[| | |d l] q]; try discriminate.
  apply tail_over in K1. destruct d; try exact (keep_op _ _ _ H K1). injection H as <-. exact K1.
Qed.
Lemma where_read ts w r : where_of g ts = (w, r) -> over ts -> over w /\ over r.
Proof.
  unfold where_of. destruct (g NWhere ts) as [q|] eqn:E; intros H K; injection H as <- <-.
  - split; [apply upto_over; exact K|exact (G _ _ _ E K)].
  - split; [constructor|exact K].
Qed.
Lemma generics_read ts p r : generics_of g ts = (p, r) -> over ts -> over p /\ over r.
Proof.
  unfold generics_of. destruct (opt (g NGenerics) ts) as [q|] eqn:E; intros H K; injection H as <- <-.
  - split; [apply upto_over; exact K|exact (keep_opt _ (G _) _ _ E K)].
  - split; [constructor|exact K].
Qed.
Lemma bounds_read n : forall ts l t r, bounds_of g n ts = Some (l, t, r) -> over ts -> over (flat_map (fun b => b) l) /\ over r.
Proof.
  induction n as [|n IH]; intros ts l t r H K; [discriminate|]. cbn [bounds_of] in H.
  destruct (g NBound ts) as [q|] eqn:E; [|discriminate]. pose proof (G _ _ _ E K) as K1.
  assert (U : over (flat_map (fun b => b) [upto ts q])) by (cbn; rewrite app_nil_r; apply upto_over; exact K).
  destruct (op "+" q) as [q'|] eqn:Eo; [|injection H as <- <- <-; auto].
  pose proof (keep_op _ _ _ Eo K1) as K2. destruct (bounds_of g n q') as [[[l' t'] r'']|] eqn:Eb.
  - injection H as <- <- <-. destruct (IH _ _ _ _ Eb K2) as [B1 B2]. split; [|exact B2].
    cbn [flat_map]. apply over_app. split; [apply upto_over; exact K|exact B1].
  - injection H as <- <- <-. auto.
Qed.

Ltac overs :=
  repeat first
    [ assumption
    | apply over_nil
    | (apply over_app; split)
    | (apply over_group)
    | match goal with
      | |- OriginProofs.over _ [TLit _] => apply over_lit
      | |- OriginProofs.over _ [sym _] => constructor
      | |- OriginProofs.over _ (upto _ _) => apply upto_over
      | |- OriginProofs.over _ (?t :: ?u :: ?r) => apply over_cons; split
      | |- OriginProofs.over _ (?t :: ?r) => match r with [] => fail 1 | _ => apply over_cons; split end
      end ].

Lemma trait_item_read : reading trait_item_tokens (trait_item_ g stmts).
Proof.
  intros ts x r H K. unfold trait_item_ in H. destruct (take_attrs ts) as [a r0] eqn:Ea.
  destruct (attrs_read _ _ _ Ea K) as (A1 & A2 & A3 & A4). destruct (is_fn r0).
  - destruct (span _ r0) as [[[s t] q]|] eqn:E; [|discriminate].
    destruct (span_over _ _ _ _ _ E A2) as (K1 & K2 & K3).
    assert (D : (if all (g NSig) s then Some (TFn a s None, q) else None) = Some (x, r) -> over (trait_item_tokens x) /\ over r).
    { destruct (all (g NSig) s); [|discriminate]. intros F; injection F as <- <-. split; [|exact K3].
      cbn [trait_item_tokens]. rewrite A3. overs. }
    destruct t as [| | |[] b]; try exact (D H). destruct (all (g NSig) s); [|discriminate]. apply over_group in K2.
    destruct (take_inner_attrs b) as [ia b'] eqn:Ei. destruct (inner_read _ _ _ Ei K2) as (I1 & I2 & I3 & I4).
    destruct (stmts b') as [l|] eqn:Es; [|discriminate]. injection H as <- <-. pose proof (S0 _ _ Es I2). split; [|exact K3].
    cbn [trait_item_tokens]. rewrite outer_app, inner_app, A3, A4, I3, I4, app_nil_r. overs.
  - pose proof (keep_until_semicolon (type_alias g) r0). pose proof (keep_until_semicolon (constant g) r0). pose proof (keep_macro_call r0).
    destruct (until_semicolon (type_alias g) r0) as [q|]; [injection H as <- <-; cbn [trait_item_tokens]; split; [overs|auto]|].
    destruct (until_semicolon (constant g) r0) as [q|]; [injection H as <- <-; cbn [trait_item_tokens]; split; [overs|auto]|].
    destruct (macro_call g r0) as [q|]; [injection H as <- <-; cbn [trait_item_tokens]; split; [overs|auto]|discriminate].
Qed.
Lemma word_read x ts r : word x ts = Some r -> over ts -> over [kw x] /\ over r.
Proof.
  intros H K. destruct ts as [|[y| | |] q]; try discriminate. cbn [word] in H. destruct (str_eqb (txt x) y) eqn:E; [|discriminate].
  apply str_eqb_eq in E. subst y. injection H as <-. apply cons_over in K as [K1 K2]. auto.
Qed.
Lemma flag_read x ts (b : bool) r : (match word x ts with Some r => (true, r) | None => (false, ts) end) = (b, r) -> over ts ->
  over (kw_if b x) /\ over r.
Proof.
  destruct (word x ts) as [q|] eqn:E; intros H K; injection H as <- <-.
  - destruct (word_read _ _ _ E K). auto.
  - split; [constructor|exact K].
Qed.
Lemma impl_item_read : reading impl_item_tokens (impl_item_ g stmts).
Proof.
  intros ts x r H K. unfold impl_item_ in H. destruct (take_attrs ts) as [a r0] eqn:Ea.
  destruct (attrs_read _ _ _ Ea K) as (A1 & A2 & A3 & A4). destruct (vis_ r0) as [r1|] eqn:Ev; [|discriminate].
  pose proof (keep_vis _ _ Ev A2) as K1. cbv zeta in H.
  destruct (match word "default" r1 with Some r => (true, r) | None => (false, r1) end) as [d q] eqn:Ed.
  destruct (flag_read _ _ _ _ Ed K1) as [D1 D2]. destruct (is_fn q).
  - destruct (function_ g stmts q) as [[[[sig ia] body] r']|] eqn:Ef; [|discriminate]. injection H as <- <-.
    destruct (function_read _ _ _ _ _ Ef D2) as (F1 & F2 & F3 & F4 & F5 & F6). split; [|exact F6].
    cbn [impl_item_tokens]. rewrite outer_app, inner_app, A3, A4, F3, F4, app_nil_r. overs.
  - pose proof (keep_until_semicolon (type_alias g) q). pose proof (keep_until_semicolon (constant g) q). pose proof (keep_macro_call q).
    destruct (until_semicolon (type_alias g) q) as [q'|]; [injection H as <- <-; cbn [impl_item_tokens]; split; [overs|auto]|].
    destruct (until_semicolon (constant g) q) as [q'|]; [injection H as <- <-; cbn [impl_item_tokens]; split; [overs|auto]|].
    destruct (macro_call g q) as [q'|]; [injection H as <- <-; cbn [impl_item_tokens]; split; [overs|auto]|discriminate].
Qed.
Lemma foreign_read : reading (fun x => x) (foreign_item_ g).
Proof.
  intros ts x r H K. unfold foreign_item_ in H. destruct (take_attrs ts) as [a r0] eqn:Ea.
  destruct (attrs_read _ _ _ Ea K) as (A1 & A2 & _). destruct (vis_ r0) as [r1|] eqn:Ev; [|discriminate].
  pose proof (keep_vis _ _ Ev A2) as K1.
  destruct (until_semicolon (g NSig) r1) as [q|] eqn:E1.
  - injection H as <- <-. split; [overs|exact (keep_until_semicolon _ _ _ E1 K1)].
  - clear E1. destruct (until_semicolon _ r1) as [q|] eqn:E2; [|discriminate]. injection H as <- <-.
    split; [overs|exact (keep_until_semicolon _ _ _ E2 K1)].
Qed.
Lemma struct_read a v r x q : over (attrs_tokens a) -> outer a = a -> over v -> over [kw "struct"] -> struct_ g a v r = Some (x, q) -> over r ->
  over (item_tokens x) /\ over q.
Proof.
  intros A1 A3 V W H K. unfold struct_ in H. destruct r as [|[y| | |] r0]; try discriminate. destruct (plain_ident y); [|discriminate].
  apply cons_over in K as [Ky K0]. destruct (generics_of g r0) as [p r1] eqn:Eg. destruct (generics_read _ _ _ Eg K0) as [P1 P2].
  destruct (where_of g r1) as [w r2] eqn:Ew. destruct (where_read _ _ _ Ew P2) as [W1 W2].
  destruct (fields_ g r2) as [[f r3]|] eqn:Ef; [|discriminate]. destruct (fields_read _ _ _ Ef W2) as [F1 F2].
  assert (D : forall f', f = f' -> (match f' with FNamed _ _ => False | _ => True end) ->
    (let (w', r4) := match w with [] => where_of g r3 | _ => (w, r3) end in
     option_map (fun r5 => (IStruct a v y {| g_params := p; g_where := w' |} f', r5)) (op ";" r4)) = Some (x, q) ->
    over (item_tokens x) /\ over q).
  { intros f' <- Hf. destruct (match w with [] => where_of g r3 | _ => (w, r3) end) as [w' r4] eqn:Ew'.
    assert (WW : over w' /\ over r4).
    { destruct w; [exact (where_read _ _ _ Ew' F2)|injection Ew' as <- <-; auto]. }
    destruct WW as [X1 X2]. destruct (op ";" r4) as [r5|] eqn:Eo; [|discriminate]. intros E. injection E as <- <-.
    split; [|exact (keep_op _ _ _ Eo X2)]. cbn [item_tokens g_params g_where]. rewrite A3. destruct f; [destruct Hf| |]; overs. }
  destruct f as [l t|l t|]; [|exact (D _ eq_refl I H)|exact (D _ eq_refl I H)].
  injection H as <- <-. split; [|exact F2]. cbn [item_tokens g_params g_where]. rewrite A3. overs.
Qed.
Lemma enum_read a v r x q : over (attrs_tokens a) -> outer a = a -> over v -> over [kw "enum"] -> enum_ g a v r = Some (x, q) -> over r ->
  over (item_tokens x) /\ over q.
Proof.
  intros A1 A3 V W H K. unfold enum_ in H. destruct r as [|[y| | |] r0]; try discriminate.
  apply cons_over in K as [Ky K0]. destruct (generics_of g r0) as [p r1] eqn:Eg. destruct (generics_read _ _ _ Eg K0) as [P1 P2].
  destruct (where_of g r1) as [w r2] eqn:Ew. destruct (where_read _ _ _ Ew P2) as [W1 W2].
  destruct r2 as [|[| | |[] l] r3]; try discriminate. destruct (plain_ident y); [|discriminate].
  destruct (separated _ _ l) as [[vs t]|] eqn:Es; [|discriminate]. injection H as <- <-.
  apply cons_over in W2 as [L1 L2]. apply over_group in L1. split; [|exact L2].
  cbn [item_tokens g_params g_where]. rewrite A3. pose proof (separated_over _ _ variant_read _ _ _ _ Es L1) as M.
  pose proof (punctuated_over _ (sym ",") t _ comma_over M). overs.
Qed.
Lemma union_read a v r x q : over (attrs_tokens a) -> outer a = a -> over v -> over [kw "union"] -> union_ g a v r = Some (x, q) -> over r ->
  over (item_tokens x) /\ over q.
Proof.
  intros A1 A3 V W H K. unfold union_ in H. destruct r as [|[y| | |] r0]; try discriminate.
  apply cons_over in K as [Ky K0]. destruct (generics_of g r0) as [p r1] eqn:Eg. destruct (generics_read _ _ _ Eg K0) as [P1 P2].
  destruct (where_of g r1) as [w r2] eqn:Ew. destruct (where_read _ _ _ Ew P2) as [W1 W2].
  destruct r2 as [|[| | |[] l] r3]; try discriminate. destruct (plain_ident y); [|discriminate].
  destruct (separated _ _ l) as [[vs t]|] eqn:Es; [|discriminate]. injection H as <- <-.
  apply cons_over in W2 as [L1 L2]. apply over_group in L1. split; [|exact L2].
  cbn [item_tokens g_params g_where]. rewrite A3. pose proof (separated_over _ _ (field_read true) _ _ _ _ Es L1) as M.
  pose proof (punctuated_over _ (sym ",") t _ comma_over M). overs.
Qed.
Lemma trait_read a v u au r x q : over (attrs_tokens a) -> outer a = a -> inner a = [] -> over v -> over (kw_if u "unsafe") -> over (kw_if au "auto") ->
  over [kw "trait"] -> trait_ g stmts a v u au r = Some (x, q) -> over r -> over (item_tokens x) /\ over q.
Proof.
  intros A1 A3 A4 V U AU W H K. unfold trait_ in H. destruct r as [|[y| | |] r0]; try discriminate.
  apply cons_over in K as [Ky K0]. destruct (generics_of g r0) as [p r1] eqn:Eg. destruct (generics_read _ _ _ Eg K0) as [P1 P2].
  destruct (match op ":" r1 with Some _ => _ | None => _ end) as [[[supers t] r2]|] eqn:Es; [|discriminate].
  assert (B : over (flat_map (fun b => b) supers) /\ over r2).
  { destruct (op ":" r1) as [r1'|] eqn:Eo; [|injection Es as <- <- <-; split; [constructor|exact P2]].
    pose proof (keep_op _ _ _ Eo P2) as K1. destruct (bounds_of g _ r1') as [[[l' t'] r']|] eqn:Eb.
    - injection Es as <- <- <-. exact (bounds_read _ _ _ _ _ Eb K1).
    - injection Es as <- <- <-. split; [constructor|exact K1]. }
  destruct B as [B1 B2]. destruct (where_of g r2) as [w r3] eqn:Ew. destruct (where_read _ _ _ Ew B2) as [W1 W2].
  destruct r3 as [|[| | |[] l] r4]; try discriminate. destruct (take_inner_attrs l) as [ia l'] eqn:Ei.
  destruct (plain_ident y); [|discriminate]. destruct (sequence _ _ l') as [is|] eqn:Eq; [|discriminate]. injection H as <- <-.
  apply cons_over in W2 as [L1 L2]. apply over_group in L1. destruct (inner_read _ _ _ Ei L1) as (I1 & I2 & I3 & I4).
  split; [|exact L2]. cbn [item_tokens g_params g_where]. rewrite outer_app, inner_app, A3, A4, I3, I4, app_nil_r.
  pose proof (sequence_over _ _ trait_item_read _ _ _ Eq I2) as M.
  assert (N : over (match supers with [] => [] | _ => sym ":" :: punctuated (fun b => b) (sym "+") t supers end)).
  { destruct supers; [constructor|]. apply over_cons. split; [constructor|]. apply punctuated_over; [constructor|exact B1]. }
  overs.
Qed.
Lemma impl_read a d u r x q : over (attrs_tokens a) -> outer a = a -> inner a = [] -> over (kw_if d "default") -> over (kw_if u "unsafe") ->
  over [kw "impl"] -> impl_ g stmts a d u r = Some (x, q) -> over r -> over (item_tokens x) /\ over q.
Proof.
  intros A1 A3 A4 D U W H K. unfold impl_ in H. destruct (generics_of g r) as [p r1] eqn:Eg. destruct (generics_read _ _ _ Eg K) as [P1 P2].
  destruct (match op "!" r1 with Some _ => _ | None => _ end) as [bang r2] eqn:Eb.
  assert (K2 : over r2).
  { destruct (op "!" r1) as [z|] eqn:Eo; injection Eb as <- <-; [exact (keep_op _ _ _ Eo P2)|exact P2]. }
  cbv zeta in H.
  assert (F : forall tr ty r', over (match tr with Some (bang, path) => (if bang : bool then [sym "!"] else []) ++ path ++ [kw "for"] | None => [] end) ->
    over ty -> over r' ->
    (let (w, r3) := where_of g r' in
     match r3 with
     | TGroup Brace l :: r4 =>
         let (ia, l') := take_inner_attrs l in
         option_map (fun is => (IImpl (a ++ ia) d u {| g_params := p; g_where := w |} tr ty is, r4))
           (sequence (impl_item_ g stmts) (List.length l') l')
     | _ => None
     end) = Some (x, q) -> over (item_tokens x) /\ over q).
  { intros tr ty r' T1 T2 K' E. destruct (where_of g r') as [w r3] eqn:Ew. destruct (where_read _ _ _ Ew K') as [W1 W2].
    destruct r3 as [|[| | |[] l] r4]; try discriminate. destruct (take_inner_attrs l) as [ia l'] eqn:Ei.
    destruct (sequence _ _ l') as [is|] eqn:Eq; [|discriminate]. injection E as <- <-.
    apply cons_over in W2 as [L1 L2]. apply over_group in L1. destruct (inner_read _ _ _ Ei L1) as (I1 & I2 & I3 & I4).
    split; [|exact L2]. cbn [item_tokens g_params g_where]. rewrite outer_app, inner_app, A3, A4, I3, I4, app_nil_r.
    pose proof (sequence_over _ _ impl_item_read _ _ _ Eq I2) as M. overs. }
  unfold then_ in H at 1. destruct (g NPathType r2) as [q1|] eqn:Ep.
  - pose proof (G _ _ _ Ep K2) as K3. destruct (word "for" q1) as [r3|] eqn:Ef.
    + destruct (word_read _ _ _ Ef K3) as [F1 F2]. destruct (g (NType false) r3) as [r4|] eqn:Et; [|discriminate].
      refine (F _ _ _ _ _ _ H); [|overs|exact (G _ _ _ Et F2)]. destruct bang; overs.
    + destruct (g (NType false) r2) as [r3|] eqn:Et; [|discriminate].
      refine (F _ _ _ _ _ _ H); [overs|overs|exact (G _ _ _ Et K2)].
  - destruct (g (NType false) r2) as [r3|] eqn:Et; [|discriminate].
    refine (F _ _ _ _ _ _ H); [overs|overs|exact (G _ _ _ Et K2)].
Qed.
Lemma mod_read a v u r x q : over (attrs_tokens a) -> outer a = a -> inner a = [] -> over v -> over (kw_if u "unsafe") ->
  over [kw "mod"] -> mod_ items a v u r = Some (x, q) -> over r -> over (item_tokens x) /\ over q.
Proof.
  intros A1 A3 A4 V U W H K. unfold mod_ in H. destruct r as [|[y| | |] r0]; try discriminate. apply cons_over in K as [Ky K0].
  assert (D : (if plain_ident y then option_map (fun r'' => (IMod a v u y None, r'')) (op ";" r0) else None) = Some (x, q) ->
    over (item_tokens x) /\ over q).
  { destruct (plain_ident y); [|discriminate]. destruct (op ";" r0) as [r1|] eqn:Eo; [|discriminate]. intros E. injection E as <- <-.
    split; [|exact (keep_op _ _ _ Eo K0)]. cbn [item_tokens]. rewrite A3. overs. }
  destruct r0 as [|[| | |[] l] r1]; try exact (D H). destruct (take_inner_attrs l) as [ia l'] eqn:Ei. destruct (plain_ident y); [|discriminate].
  destruct (items l') as [is|] eqn:Eq; [|discriminate]. injection H as <- <-.
  apply cons_over in K0 as [L1 L2]. apply over_group in L1. destruct (inner_read _ _ _ Ei L1) as (I1 & I2 & I3 & I4).
  split; [|exact L2]. cbn [item_tokens]. rewrite outer_app, inner_app, A3, A4, I3, I4, app_nil_r.
  pose proof (I0 _ _ Eq I2). overs.
Qed.
Lemma key_over k s : over [TIdent k] -> str_eqb k (txt s) = true -> over [kw s].
Proof. intros H E. apply str_eqb_eq in E. subst k. exact H. Qed.
Lemma item_read : reading item_tokens (item_ g stmts items).
Proof.
  intros ts x r H K. unfold item_ in H. destruct (take_attrs ts) as [a r0] eqn:Ea.
  destruct (attrs_read _ _ _ Ea K) as (A1 & A2 & A3 & A4). destruct (vis_ r0) as [r1|] eqn:Ev; [|discriminate].
  pose proof (keep_vis _ _ Ev A2) as K1. cbv zeta in H. pose proof (upto_over _ r1 A2) as V. destruct (is_fn r1).
  { destruct (function_ g stmts r1) as [[[[sig ia] body] q]|] eqn:Ef; [|discriminate]. injection H as <- <-.
    destruct (function_read _ _ _ _ _ Ef K1) as (F1 & F2 & F3 & F4 & F5 & F6). split; [|exact F6].
    cbn [item_tokens]. rewrite outer_app, inner_app, A3, A4, F3, F4, app_nil_r. overs. }
  destruct (match word "unsafe" r1 with Some _ => _ | None => _ end) as [u r2] eqn:Eu.
  destruct (flag_read _ _ _ _ Eu K1) as [U1 U2].
  destruct (match (word "auto" ;;; unless (unless (word "trait"))) r2 with Some _ => _ | None => _ end) as [au r3] eqn:Eau.
  assert (AU : over (kw_if au "auto") /\ over r3).
  { destruct ((word "auto" ;;; unless (unless (word "trait"))) r2); [|injection Eau as <- <-; split; [constructor|exact U2]].
    exact (flag_read _ _ _ _ Eau U2). }
  destruct AU as [AU K3]. destruct r3 as [|[k| | |] q]; try discriminate.
  pose proof (cons_over _ _ K3) as [Kk Kq].
  assert (D : forall f : parser, keeping f -> forall o, f (TIdent k :: q) = o -> option_map (fun r => (IOther (upto ts r), r)) o = Some (x, r) ->
    over (item_tokens x) /\ over r).
  { intros f F o Eo E. destruct o as [z|]; [|discriminate]. injection E as <- <-. cbn [item_tokens]. split; [overs|exact (F _ _ Eo K3)]. }
  pose proof (fun s => key_over k s Kk) as KK.
  destruct (str_eqb k (txt "struct")) eqn:E1; [exact (struct_read _ _ _ _ _ A1 A3 V (KK _ E1) H Kq)|].
  destruct (str_eqb k (txt "enum")) eqn:E2; [exact (enum_read _ _ _ _ _ A1 A3 V (KK _ E2) H Kq)|].
  destruct (str_eqb k (txt "trait")) eqn:E3; [exact (trait_read _ _ _ _ _ _ _ A1 A3 A4 V U1 AU (KK _ E3) H Kq)|].
  destruct (str_eqb k (txt "impl")) eqn:E4; [exact (impl_read _ false _ _ _ _ A1 A3 A4 (over_nil Q) U1 (KK _ E4) H Kq)|].
  destruct (str_eqb k (txt "mod")) eqn:E5; [exact (mod_read _ _ _ _ _ _ A1 A3 A4 V U1 (KK _ E5) H Kq)|].
  destruct (str_eqb k (txt "extern")) eqn:E6.
  { destruct (match q with TLit (LStr x p) :: r' => (Some (x, p), r') | _ => (None, q) end) as [abi r'] eqn:Eabi.
    assert (K' : over r').
    { destruct q as [|[| |[]|] q']; injection Eabi as <- <-; first [exact Kq|exact (tail_over _ _ Kq)]. }
    destruct r' as [|[| | |[] l] r'']; try exact (D _ (keep_until_semicolon _) _ eq_refl H).
    destruct (take_inner_attrs l) as [ia l'] eqn:Ei. destruct (sequence _ _ l') as [is|] eqn:Eq; [|discriminate]. injection H as <- <-.
    apply cons_over in K' as [L1 L2]. apply over_group in L1. destruct (inner_read _ _ _ Ei L1) as (I1 & I2 & I3 & I4).
    split; [|exact L2]. cbn [item_tokens]. rewrite outer_app, inner_app, A3, A4, I3, I4, app_nil_r.
    pose proof (sequence_over _ _ foreign_read _ _ _ Eq I2) as M. rewrite flat_map_concat_map, map_id in M.
    pose proof (KK _ E6). destruct abi as [[]|]; overs. }
  destruct (str_eqb k (txt "union")) eqn:E7.
  { destruct (union_ g a (upto r0 r1) q) as [[x' r']|] eqn:Eun; [|discriminate]. injection H as <- <-.
    exact (union_read _ _ _ _ _ A1 A3 V (KK _ E7) Eun Kq). }
  destruct (str_eqb k (txt "static")); [exact (D _ (keep_until_semicolon _) _ eq_refl H)|].
  destruct (str_eqb k (txt "const")); [exact (D _ (keep_until_semicolon _) _ eq_refl H)|].
  destruct (str_eqb k (txt "use")); [exact (D _ (keep_until_semicolon _) _ eq_refl H)|].
  destruct (str_eqb k (txt "type")); [exact (D _ (keep_until_semicolon _) _ eq_refl H)|].
  destruct (str_eqb k (txt "macro_rules")); [exact (D _ keep_macro_call _ eq_refl H)|discriminate].
Qed.
Lemma module_item_read : reading item_tokens (module_item g stmts items).
Proof.
  intros ts x r H K. unfold module_item in H. destruct (item_ g stmts items ts) as [[x' r']|] eqn:E.
  - injection H as <- <-. exact (item_read _ _ _ E K).
  - destruct ((attrs_ ;;; macro_call g) ts) as [q|] eqn:E1; [|discriminate]. injection H as <- <-. cbn [item_tokens].
    split; [overs|]. refine ((_ : keeping _) _ _ E1 K). apply keep_then; [apply keep_attrs|apply keep_macro_call].
Qed.
Lemma stmt_read : reading stmt_tokens (stmt_ g stmts items).
Proof.
  intros ts x r H K. unfold stmt_ in H. cbv zeta in H.
  assert (D : forall q, over q -> Some (SOther (upto ts q), q) = Some (x, r) -> over (stmt_tokens x) /\ over r).
  { intros q Kq E. injection E as <- <-. cbn [stmt_tokens]. split; [overs|exact Kq]. }
  destruct (op ";" ts) as [q|] eqn:E1; [exact (D _ (keep_op _ _ _ E1 K) H)|].
  destruct (item_ g stmts items ts) as [[x' r']|] eqn:E2; [injection H as <- <-; cbn [stmt_tokens]; exact (item_read _ _ _ E2 K)|].
  destruct (g NLet ts) as [q|] eqn:E3; [exact (D _ (G _ _ _ E3 K) H)|].
  destruct ((attrs_ ;;; macro_call g) ts) as [q|] eqn:E4.
  { refine (D _ _ H). refine ((_ : keeping _) _ _ E4 K). apply keep_then; [apply keep_attrs|apply keep_macro_call]. }
  destruct ((attrs_ ;;; g NBlockLike ;;; unless (op "." <|> op "?")) ts) as [q|] eqn:E5.
  { assert (Kq : over q) by (refine ((_ : keeping _) _ _ E5 K); keeps').
    destruct (op ";" q) as [q'|] eqn:E6; [exact (D _ (keep_op _ _ _ E6 Kq) H)|exact (D _ Kq H)]. }
  destruct (g (NExpr true) ts) as [[|t q]|] eqn:E7; [exact (D [] ltac:(constructor) H)| |discriminate].
  destruct (op ";" (t :: q)) as [q'|] eqn:E8; [|discriminate]. exact (D _ (keep_op _ _ _ E8 (G _ _ _ E7 K)) H).
Qed.
End Items.

Lemma stmts_read fuel : reading0 stmt_tokens (stmts fuel).
Proof.
  induction fuel as [|fuel IH]; intros ts l H K; [discriminate|]. cbn [stmts] in H.
  revert H K. apply sequence_over, stmt_read; [intros n; apply keep_go|exact IH|].
  match goal with |- reading0 _ (?F fuel) => assert (A : forall k, reading0 item_tokens (F k)); [|exact (A fuel)] end.
  intros k. induction k as [|k IHk]; [intros ? ? H; discriminate|].
  intros us is. apply sequence_over, module_item_read; [intros n; apply keep_go|exact IH|exact IHk].
Qed.
End Over.

Lemma self_over ts : over (fun x => In x (names ts)) ts.
Proof. unfold over. rewrite Forall_forall. auto. Qed.
Lemma over_self ts r : (forall Q, over Q ts -> over Q r) -> incl (names r) (names ts).
Proof. intros H. pose proof (H _ (self_over ts)) as K. unfold over in K. rewrite Forall_forall in K. exact K. Qed.

Lemma prefix_kept ts k : incl (names (firstn k ts)) (names ts).
Proof. apply over_self. intros Q. apply over_firstn. Qed.
Lemma node_kept ts o x k u : node ts o = Some (x, k, u) -> incl (names x) (names ts).
Proof. destruct o as [r|]; [|discriminate]. intros H. injection H as <- _ _. apply prefix_kept. Qed.
Lemma grouped_kept d l k r : incl (names [TGroup d (firstn k l)]) (names (TGroup d l :: r)).
Proof. apply over_self. intros Q H. apply cons_over in H as [H _]. apply over_group in H. apply over_group, over_firstn. exact H. Qed.
Lemma whole_kept f ts r : whole f ts = Some r -> incl (names r) (names ts).
Proof. unfold whole. destruct (all f ts); [|discriminate]. intros H; injection H as <-. apply incl_refl. Qed.

Theorem rust_keeps_names : keeps_names rust rust_parsers.
Proof.
  split.
  - intros ts r. apply whole_kept.
  - intros ts r. apply whole_kept.
  - intros ts r. apply whole_kept.
  - intros ts r k u. apply node_kept.
  - intros ts r k u H. cbn [pre_type rust_parsers] in H. unfold rust_pre_type in H.
    destruct (node ts (nt_ (NType true) ts)) as [[[x' k'] u']|] eqn:E.
    + injection H as -> -> ->. exact (node_kept _ _ _ _ _ E).
    + destruct ts as [|[| | |[] l] q]; try discriminate.
      destruct (nt_ (NType true) l) as [[|t r']|]; try discriminate.
      destruct (is_comma t); [discriminate|]. injection H as <- _ _. apply grouped_kept.
  - intros ts r k u. apply node_kept.
  - intros ts b k u H. cbn [pre_block rust_parsers] in H. destruct ts as [|[| | |[] l] q]; try discriminate.
    destruct (stmts_ l) as [b'|] eqn:E; [|discriminate]. injection H as <- _ _. apply over_self. intros Q K.
    apply cons_over in K as [K _]. apply over_group in K. exact (stmts_read Q depth _ _ E K).
Qed.

(** The smaller instance. *)
Lemma items0_kept Q n : forall ts b, items0 n ts = Some b -> over Q ts -> over Q (block_tokens b).
Proof.
  induction n as [|n IH]; intros ts b H K.
  - destruct ts; [|discriminate]. injection H as <-. constructor.
  - destruct ts as [|[f| | |] ts]; try discriminate; [injection H as <-; constructor|].
    destruct ts as [|[x| | |] ts]; try discriminate. destruct ts as [|[| | |[] a] ts]; try discriminate.
    destruct ts as [|[| | |[] c] ts]; try discriminate. cbn [items0] in H. destruct (str_eqb f (txt "fn")); [|discriminate].
    destruct (items0 n ts) as [b'|] eqn:E; [|discriminate]. injection H as <-.
    apply cons_over in K as [K1 K]. apply cons_over in K as [K2 K]. apply cons_over in K as [K3 K]. apply cons_over in K as [K4 K].
    cbn [block_tokens flat_map stmt_tokens item_tokens]. apply over_app. split; [|exact (IH _ _ E K)].
    cbn [attrs_tokens outer inner filter flat_map app]. apply over_cons; split; [exact K1|]. apply over_cons; split; [exact K2|].
    apply over_cons; split; [exact K3|]. apply over_group in K4. apply over_group. destruct c; [constructor|].
    cbn [flat_map stmt_tokens]. rewrite app_nil_r. exact K4.
Qed.
Theorem ascii_keeps_names : keeps_names ascii ascii_parsers.
Proof.
  split.
  - intros ts r H. cbn [parse_path ascii] in H. destruct (simple_path _ ts) as [[l []]|]; try discriminate. injection H as <-. apply incl_refl.
  - intros ts r H. cbn [parse_type ascii] in H. destruct (simple_type _ ts) as [[]|]; try discriminate. injection H as <-. apply incl_refl.
  - intros ts r H. cbn [Values.parse_expr ascii] in H. destruct (simple_expr _ ts); [|discriminate]. injection H as <-. apply incl_refl.
  - intros ts r k u. apply node_kept.
  - intros ts r k u H. cbn [pre_type ascii_parsers] in H. unfold pre_type0 in H.
    destruct ts as [|[| | |[] [|t l]] q]; try exact (node_kept _ _ _ _ _ H).
    + injection H as <- _ _. apply (grouped_kept Paren [] 0).
    + destruct (simple_type _ _) as [[|t' q']|]; try discriminate.
      * injection H as <- _ _. pose proof (grouped_kept Paren (t :: l) (List.length (t :: l)) q) as M. rewrite firstn_all in M. exact M.
      * destruct (is_comma t'); injection H as <- _ _; [|apply grouped_kept].
        pose proof (grouped_kept Paren (t :: l) (List.length (t :: l)) q) as M. rewrite firstn_all in M. exact M.
  - intros ts r k u. apply node_kept.
  - intros ts b k u H. cbn [pre_block ascii_parsers] in H. destruct ts as [|[| | |[] l] q]; try discriminate.
    destruct (items0 _ l) as [b'|] eqn:E; [|discriminate]. injection H as <- _ _. apply over_self. intros Q K.
    apply cons_over in K as [K _]. apply over_group in K. exact (items0_kept Q _ _ _ E K).
Qed.
