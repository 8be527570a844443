(** The parsers of RustGrammar.v do not look into string literals. *)
From Coq Require Import String Lia.
From Verif Require Import Base BaseFacts Token Item Parse SpecSubst Concrete RustGrammar.
Open Scope list_scope.

Notation L := (Forall2 same_but_strings).
(** Both fail or both succeed with remainders that differ in strings only. *)
Definition agree (o o' : option (list tt)) : Prop :=
  match o, o' with Some r, Some r' => L r r' | None, None => True | _, _ => False end.
Definition blind (p : parser) : Prop := forall ts ts', L ts ts' -> agree (p ts) (p ts').
(** The same for parsers that build something, with a relation between the results. *)
Definition agree2 {A} (R : A -> A -> Prop) (o o' : option (A * list tt)) : Prop :=
  match o, o' with Some (x, r), Some (x', r') => R x x' /\ L r r' | None, None => True | _, _ => False end.
Definition blind2 {A} (R : A -> A -> Prop) (p : list tt -> option (A * list tt)) : Prop :=
  forall ts ts', L ts ts' -> agree2 R (p ts) (p ts').
Definition any {A} (_ _ : A) : Prop := True.
(** The same for parsers of everything. *)
Definition same_success {A} (o o' : option A) : Prop :=
  match o, o' with Some _, Some _ | None, None => True | _, _ => False end.
Definition blind0 {A} (p : list tt -> option A) : Prop := forall ts ts', L ts ts' -> same_success (p ts) (p ts').

Lemma L_length ts ts' : L ts ts' -> List.length ts = List.length ts'.
Proof. induction 1; cbn; congruence. Qed.
Lemma L_firstn k : forall ts ts', L ts ts' -> L (firstn k ts) (firstn k ts').
Proof. induction k; intros ts ts' H; cbn; [constructor|]. destruct H; constructor; auto. Qed.
Lemma L_app a a' b b' : L a a' -> L b b' -> L (a ++ b) (a' ++ b').
Proof. intros H; induction H; cbn; intros; auto. Qed.
Lemma L_rev ts ts' : L ts ts' -> L (rev ts) (rev ts').
Proof. induction 1; cbn; [constructor|]. apply L_app; auto. Qed.
Lemma L_upto a a' b b' : L a a' -> L b b' -> L (upto a b) (upto a' b').
Proof. intros H K. unfold upto. rewrite (L_length _ _ H), (L_length _ _ K). apply L_firstn, H. Qed.

Lemma blind_word x : blind (word x).
Proof. intros ts ts' [|t t' r r' Ht Hr]; [exact I|]. destruct Ht; cbn; try exact I. destruct (str_eqb (txt x) x0); [exact Hr|exact I]. Qed.
Lemma blind_one_of x : blind (one_of x).
Proof.
  intros ts ts' [|t t' r r' Ht Hr]; [exact I|]. destruct Ht; try exact I. unfold one_of, agree.
  destruct (existsb _ _); [exact Hr|exact I].
Qed.
Lemma blind_ident : blind ident.
Proof.
  intros ts ts' [|t t' r r' Ht Hr]; [exact I|]. destruct Ht; try exact I. unfold ident, agree.
  destruct (plain_ident _); [exact Hr|exact I].
Qed.
Lemma blind_segment :
  blind (fun ts => match ts with TIdent x :: r => if segment_ident x then Some r else None | _ => None end).
Proof.
  intros ts ts' [|t t' r r' Ht Hr]; [exact I|]. destruct Ht; try exact I. unfold agree.
  destruct (segment_ident _); [exact Hr|exact I].
Qed.
Lemma blind_ch x : blind (ch x).
Proof.
  intros ts ts' [|t t' r r' Ht Hr]; [exact I|]. destruct Ht; try exact I. unfold ch, agree.
  destruct (N.eqb _ _); [exact Hr|exact I].
Qed.
Lemma blind_op_chars o : blind (op_chars o).
Proof.
  induction o as [|c o IH]; intros ts ts' H; [exact I|].
  destruct H as [|t t' r r' Ht Hr]; [destruct o; exact I|].
  destruct Ht as [| d j | | |]; try (destruct o; exact I).
  destruct o as [|c' o].
  - cbn. destruct (N.eqb c d && negb j); [exact Hr|exact I].
  - cbn [op_chars]. destruct (N.eqb c d && j); [exact (IH _ _ Hr)|exact I].
Qed.
Lemma blind_op x : blind (op x).
Proof. apply blind_op_chars. Qed.
Lemma blind_lifetime : blind lifetime.
Proof.
  intros ts ts' [|t t' r r' Ht Hr]; [exact I|]. destruct Ht as [| c [] | | |]; try exact I.
  destruct Hr as [|u u' r r' Hu Hr]; [exact I|]. destruct Hu; try exact I. unfold lifetime, agree.
  destruct (N.eqb c 39); [exact Hr|exact I].
Qed.
Lemma blind_group d : blind2 L (group d).
Proof.
  intros ts ts' [|t t' r r' Ht Hr]; [exact I|]. destruct Ht as [| | | |d' g g' Hg]; try exact I. unfold group, agree2.
  destruct (delim_eqb d d'); [split; assumption|exact I].
Qed.
Lemma blind_then f g : blind f -> blind g -> blind (f ;;; g).
Proof.
  intros F G ts ts' H. unfold then_. generalize (F _ _ H). destruct (f ts), (f ts'); cbn; try tauto. intros K. exact (G _ _ K).
Qed.
Lemma blind_or f g : blind f -> blind g -> blind (f <|> g).
Proof.
  intros F G ts ts' H. unfold or_. generalize (F _ _ H). destruct (f ts), (f ts'); cbn; try tauto. intros _. exact (G _ _ H).
Qed.
Lemma blind_some : blind Some.
Proof. intros ts ts' H. exact H. Qed.
Lemma blind_none : blind (fun _ => None).
Proof. intros ts ts' H. exact I. Qed.
Lemma blind_opt f : blind f -> blind (opt f).
Proof. intros F. apply blind_or; [exact F|apply blind_some]. Qed.
Lemma blind_all f : blind f -> forall ts ts', L ts ts' -> all f ts = all f ts'.
Proof.
  intros F ts ts' H. unfold all. generalize (F _ _ H). destruct (f ts), (f ts'); cbn; try tauto.
  intros K. destruct K; reflexivity.
Qed.
Lemma blind_inside d f : blind f -> blind (inside d f).
Proof.
  intros F ts ts' H. unfold inside. generalize (blind_group d _ _ H).
  destruct (group d ts) as [[g r]|], (group d ts') as [[g' r']|]; cbn; try tauto. intros [Hg Hr].
  rewrite (blind_all _ F _ _ Hg). destruct (all f g'); [exact Hr|exact I].
Qed.
Lemma blind_any_group : blind any_group.
Proof. intros ts ts' [|t t' r r' Ht Hr]; [exact I|]. destruct Ht; try exact I. exact Hr. Qed.
Lemma blind_literal : blind literal.
Proof. intros ts ts' [|t t' r r' Ht Hr]; [exact I|]. destruct Ht; try exact I; exact Hr. Qed.
Lemma blind_string_lit : blind string_lit.
Proof. intros ts ts' [|t t' r r' Ht Hr]; [exact I|]. destruct Ht as [| |[]| |]; try exact I; exact Hr. Qed.
Lemma blind_rest : blind rest_.
Proof. intros ts ts' _. constructor. Qed.
Lemma blind_unless f : blind f -> blind (unless f).
Proof. intros F ts ts' H. unfold unless. generalize (F _ _ H). destruct (f ts), (f ts'); cbn; tauto. Qed.
Lemma blind_at_end : blind at_end.
Proof. intros ts ts' [|]; [constructor|exact I]. Qed.
Lemma blind_binary_operator : blind binary_operator.
Proof.
  unfold binary_operator. induction binary_operators as [|o l IH]; [apply blind_none|].
  cbn [fold_right]. apply blind_or; [apply blind_op|exact IH].
Qed.
Lemma blind_take_attrs : forall ts ts', L ts ts' -> L (snd (take_attrs ts)) (snd (take_attrs ts')).
Proof.
  fix F 3. intros ts ts' H. destruct H as [|t t' r r' Ht Hr]; [constructor|].
  destruct Ht as [x|c j|l|v p v' p'|d g g' Hg]; try (constructor; [constructor; assumption|assumption]).
  pose proof Hr as Hr0.
  destruct Hr as [|u u' r r' Hu Hr]; [repeat constructor|].
  destruct Hu as [x|c' j'|l|v p v' p'|d g g' Hg];
    try (constructor; [constructor|exact Hr0]).
  destruct d; try (constructor; [constructor|exact Hr0]).
  cbn [take_attrs]. destruct (N.eqb c 35).
  - specialize (F _ _ Hr). destruct (take_attrs r), (take_attrs r'). exact F.
  - constructor; [constructor|exact Hr0].
Qed.
Lemma blind_take_inner : forall ts ts', L ts ts' -> L (snd (take_inner_attrs ts)) (snd (take_inner_attrs ts')).
Proof.
  fix F 3. intros ts ts' H. destruct H as [|t t' r r' Ht Hr]; [constructor|].
  destruct Ht as [x|c j|l|v p v' p'|d g g' Hg]; try (constructor; [constructor; assumption|assumption]).
  pose proof Hr as Hr0.
  destruct Hr as [|u u' r r' Hu Hr]; [repeat constructor|].
  destruct Hu as [x|c' j'|l|v p v' p'|d g g' Hg]; try (constructor; [constructor|exact Hr0]).
  destruct Hr as [|w w' r r' Hw Hr]; [constructor; [constructor|exact Hr0]|].
  destruct Hw as [x|c'' j''|l|v p v' p'|d g g' Hg]; try (constructor; [constructor|exact Hr0]).
  destruct d; try (constructor; [constructor|exact Hr0]).
  cbn [take_inner_attrs]. destruct (N.eqb c 35 && N.eqb c' 33).
  - specialize (F _ _ Hr). destruct (take_inner_attrs r), (take_inner_attrs r'). exact F.
  - constructor; [constructor|exact Hr0].
Qed.
Lemma blind_attrs : blind attrs_.
Proof. intros ts ts' H. exact (blind_take_attrs _ _ H). Qed.
Lemma blind_vis : blind vis_.
Proof.
  apply blind_opt, blind_then; [apply blind_word|]. apply blind_opt. intros ts ts' H.
  generalize (blind_group Paren _ _ H).
  destruct (group Paren ts) as [[g r]|], (group Paren ts') as [[g' r']|]; cbn; try tauto. intros [Hg Hr].
  generalize (blind_one_of "crate self super in" _ _ Hg).
  destruct (one_of _ g), (one_of _ g'); cbn; tauto.
Qed.

Ltac blinds :=
  repeat first
    [ assumption
    | apply blind_word | apply blind_one_of | apply blind_ident | apply blind_segment | apply blind_ch | apply blind_op
    | apply blind_lifetime | apply blind_any_group | apply blind_literal | apply blind_string_lit | apply blind_rest
    | apply blind_at_end | apply blind_binary_operator | apply blind_attrs | apply blind_vis
    | apply blind_opt | apply blind_then | apply blind_or | apply blind_inside | apply blind_unless
    | apply blind_some | apply blind_none ].

Section Go.
Context (block : list tt -> bool) (B : forall ts ts', L ts ts' -> block ts = block ts').

Lemma blind_go fuel : forall n, blind (go block fuel n).
Proof.
  induction fuel as [|fuel IH]; intros n; [apply blind_none|].
  assert (E : forall p : parser, blind p -> (forall ts, go block (S fuel) n ts = p ts) -> blind (go block (S fuel) n)).
  { intros p P Q ts ts' H. rewrite !Q. exact (P _ _ H). }
  destruct n; (eapply E; [|intros ts; cbn [go]; reflexivity]); try (repeat (blinds || apply IH || match goal with |- blind (if ?b then _ else _) => destruct b end); fail).
  - intros ts ts' H. generalize (IH (NPath false) _ _ H).
    destruct (go block fuel (NPath false) ts) as [r|], (go block fuel (NPath false) ts') as [r'|]; cbn [agree]; try tauto.
    intros K.
    assert (O : agree (opt (inside Paren (go block fuel (NList (NType true))) ;;; go block fuel NReturn) r)
                      (opt (inside Paren (go block fuel (NList (NType true))) ;;; go block fuel NReturn) r')).
    { refine ((_ : blind _) _ _ K). repeat (blinds || apply IH). }
    destruct (L_rev _ _ (L_upto _ _ _ _ H K)) as [|t t' q q' Ht Hq]; [exact O|].
    destruct Ht; try exact O. exact K.
  - intros ts ts' H. generalize (blind_group Brace _ _ H).
    destruct (group Brace ts) as [[g r]|], (group Brace ts') as [[g' r']|]; cbn; try tauto. intros [Hg Hr].
    rewrite (B _ _ Hg). destruct (block g'); [exact Hr|exact I].
Qed.
End Go.

Lemma blind_separated {A} (R : A -> A -> Prop) f : blind2 R f -> forall n, blind0 (separated f n).
Proof.
  intros F. induction n as [|n IH]; intros ts ts' H.
  - destruct H; exact I.
  - pose proof H as H0. destruct H as [|t t' q q' Ht Hq]; [exact I|]. cbn [separated]. generalize (F _ _ H0).
    destruct (f (t :: q)) as [[x r]|], (f (t' :: q')) as [[x' r']|]; cbn [agree2]; try tauto. intros [_ K].
    pose proof K as K0. destruct K as [|u u' r r' Hu Hr]; [exact I|].
    generalize (blind_op "," _ _ K0). destruct (op "," (u :: r)) as [s|], (op "," (u' :: r')) as [s'|]; cbn [agree]; try tauto.
    intros S. pose proof S as S0. destruct S; [exact I|]. generalize (IH _ _ S0).
    destruct (separated f n (x0 :: l)) as [[]|], (separated f n (y :: l')) as [[]|]; cbn; tauto.
Qed.
Lemma blind_sequence {A} (R : A -> A -> Prop) f : blind2 R f -> forall n, blind0 (sequence f n).
Proof.
  intros F. induction n as [|n IH]; intros ts ts' H.
  - destruct H; exact I.
  - pose proof H as H0. destruct H as [|t t' q q' Ht Hq]; [exact I|]. cbn [sequence]. generalize (F _ _ H0).
    destruct (f (t :: q)) as [[x r]|], (f (t' :: q')) as [[x' r']|]; cbn [agree2]; try tauto. intros [_ K].
    generalize (IH _ _ K). destruct (sequence f n r), (sequence f n r'); cbn; tauto.
Qed.
(** The length is the same, so it may be the bound. *)
Lemma blind_whole_sequence {A} (R : A -> A -> Prop) f : blind2 R f -> blind0 (fun ts => sequence f (List.length ts) ts).
Proof. intros F ts ts' H. cbn beta. rewrite (L_length _ _ H). exact (blind_sequence R f F _ _ _ H). Qed.
Lemma blind_whole_separated {A} (R : A -> A -> Prop) f : blind2 R f -> blind0 (fun ts => separated f (List.length ts) ts).
Proof. intros F ts ts' H. cbn beta. rewrite (L_length _ _ H). exact (blind_separated R f F _ _ _ H). Qed.

Definition agree3 (o o' : option (list tt * tt * list tt)) : Prop :=
  match o, o' with
  | Some (a, t, b), Some (a', t', b') => L a a' /\ same_but_strings t t' /\ L b b'
  | None, None => True
  | _, _ => False
  end.
Lemma blind_span f : (forall t t', same_but_strings t t' -> f t = f t') -> forall ts ts', L ts ts' -> agree3 (span f ts) (span f ts').
Proof.
  intros F ts ts' H. induction H as [|t t' r r' Ht Hr IH]; [exact I|]. cbn [span]. rewrite (F _ _ Ht).
  destruct (f t'); [cbn; auto|].
  destruct (span f r) as [[[a x] b]|], (span f r') as [[[a' x'] b']|]; cbn in *; try tauto.
  destruct IH as (? & ? & ?). auto.
Qed.
Lemma same_is_brace t t' : same_but_strings t t' -> is_brace t = is_brace t'.
Proof. destruct 1; reflexivity. Qed.
Lemma same_is_semicolon t t' : same_but_strings t t' -> is_semicolon t = is_semicolon t'.
Proof. destruct 1; reflexivity. Qed.

(** Follow both parsers through one call. *)
Ltac attrs H a a' r r' :=
  let K := fresh "K" in
  generalize (blind_take_attrs _ _ H); intros K;
  match type of H with Forall2 _ ?x ?y => destruct (take_attrs x) as [a r], (take_attrs y) as [a' r'] end; cbn [snd] in K.
Ltac inner_attrs H a a' r r' :=
  let K := fresh "K" in
  generalize (blind_take_inner _ _ H); intros K;
  match type of H with Forall2 _ ?x ?y => destruct (take_inner_attrs x) as [a r], (take_inner_attrs y) as [a' r'] end; cbn [snd] in K.
Ltac call F p H r r' :=
  let K := fresh "K" in
  pose proof (F _ _ H) as K;
  match type of H with Forall2 _ ?x ?y => destruct (p x) as [r|], (p y) as [r'|] end; cbn [agree] in K; try contradiction; try exact I.
Ltac call2 F p H x x' r r' :=
  let K := fresh "K" in let X := fresh "X" in
  pose proof (F _ _ H) as K;
  match type of H with Forall2 _ ?u ?v => destruct (p u) as [[x r]|], (p v) as [[x' r']|] end; cbn [agree2] in K; try contradiction; try exact I;
  destruct K as [X K].
Ltac call0 F p H x x' :=
  let K := fresh "K" in
  pose proof (F _ _ H) as K;
  match type of H with Forall2 _ ?u ?v => destruct (p u) as [x|], (p v) as [x'|] end; cbn in K; try contradiction; try exact I.

Section Items.
Context (g : nt -> parser) (stmts : list tt -> option (list stmt)) (items : list tt -> option (list item)).
Context (G : forall n, blind (g n)) (S0 : blind0 stmts) (I0 : blind0 items).

Ltac blinds' := repeat (blinds || apply G).

Lemma blind_is_fn ts ts' : L ts ts' -> is_fn ts = is_fn ts'.
Proof.
  intros H. unfold is_fn.
  assert (P : blind (opt (word "const");;; opt (word "async");;; opt (word "unsafe");;;
                     opt (word "extern";;; opt string_lit);;; word "fn")) by blinds'.
  pose proof (P _ _ H) as K.
  match type of K with agree ?x ?y => destruct x, y end; cbn in K; try contradiction; reflexivity.
Qed.
Lemma blind_field named : blind2 any (field_ g named).
Proof.
  intros ts ts' H. unfold field_. attrs H a a' r0 r0'. call blind_vis vis_ K r1 r1'.
  assert (N : agree2 any
    (if named then match r1 with TIdent x :: r => if plain_ident x then match op ":" r with Some r' => Some (Some x, r') | None => None end else None | _ => None end
     else Some (None, r1))
    (if named then match r1' with TIdent x :: r => if plain_ident x then match op ":" r with Some r' => Some (Some x, r') | None => None end else None | _ => None end
     else Some (None, r1'))).
  { destruct named; [|split; [exact I|assumption]].
    destruct K0 as [|t t' q q' Ht Hq]; [exact I|]. destruct Ht; try exact I.
    destruct (plain_ident x); [|exact I]. call (blind_op ":") (op ":") Hq s s'. split; [exact I|assumption]. }
  destruct (if named then _ else _) as [[x r2]|], (if named then _ else _) as [[x' r2']|]; cbn [agree2] in N; try contradiction; [|exact I].
  destruct N as [_ N]. call (G (NType true)) (g (NType true)) N r3 r3'. split; [exact I|assumption].
Qed.
Definition same_fields (f f' : fields) : Prop :=
  match f, f' with FNamed _ _, FNamed _ _ | FUnnamed _ _, FUnnamed _ _ | FUnit, FUnit => True | _, _ => False end.
Lemma blind_fields : blind2 same_fields (fields_ g).
Proof.
  intros ts ts' H. pose proof H as H0. unfold fields_.
  destruct H as [|t t' r r' Ht Hr]; [split; [exact I|assumption]|].
  destruct Ht as [| | | |d l l' Hl]; try (split; [exact I|assumption]).
  destruct d; try (split; [exact I|assumption]).
  - pose proof (blind_whole_separated any _ (blind_field false) _ _ Hl) as K. cbn beta in K.
    destruct (separated _ _ l) as [[]|], (separated _ _ l') as [[]|]; cbn in K |- *; try contradiction; auto.
  - pose proof (blind_whole_separated any _ (blind_field true) _ _ Hl) as K. cbn beta in K.
    destruct (separated _ _ l) as [[]|], (separated _ _ l') as [[]|]; cbn in K |- *; try contradiction; auto.
Qed.
Lemma blind_variant : blind2 any (variant_ g).
Proof.
  intros ts ts' H. unfold variant_. attrs H a a' r0 r0'.
  destruct K as [|t t' r1 r1' Ht K]; [exact I|]. destruct Ht; try exact I.
  destruct (plain_ident x); [|exact I]. call2 blind_fields (fields_ g) K f f' r2 r2'.
  generalize (blind_op "=" _ _ K0). destruct (op "=" r2) as [r3|], (op "=" r2') as [r3'|]; cbn [agree]; try tauto.
  - intros Q. call (G (NExpr true)) (g (NExpr true)) Q r4 r4'. split; [exact I|assumption].
  - intros _. split; [exact I|assumption].
Qed.
(** Functions: everything but the remainder is left open. *)
Lemma blind_function ts ts' : L ts ts' ->
  match function_ g stmts ts, function_ g stmts ts' with
  | Some (_, _, _, r), Some (_, _, _, r') => L r r'
  | None, None => True
  | _, _ => False
  end.
Proof.
  intros H. unfold function_. pose proof (blind_span _ same_is_brace _ _ H) as K.
  destruct (span is_brace ts) as [[[sig t] r]|], (span is_brace ts') as [[[sig' t'] r']|]; cbn in K; try contradiction; [|exact I].
  destruct K as (K1 & Kt & K2). destruct Kt as [| | | |d b b' Hb]; try exact I. destruct d; try exact I.
  rewrite (blind_all _ (G NSig) _ _ K1). destruct (all (g NSig) sig'); [|exact I].
  inner_attrs Hb ia ia' c c'. call0 S0 stmts K l l'. exact K2.
Qed.
Lemma blind_until_semicolon f : blind f -> blind (until_semicolon f).
Proof.
  intros F ts ts' H. unfold until_semicolon. pose proof (blind_span _ same_is_semicolon _ _ H) as K.
  destruct (span is_semicolon ts) as [[[a t] r]|], (span is_semicolon ts') as [[[a' t'] r']|]; cbn in K; try contradiction; [|exact I].
  destruct K as (K1 & Kt & K2). rewrite (blind_all _ F _ _ K1). destruct (all f a'); [exact K2|exact I].
Qed.
Lemma blind_type_alias : blind (type_alias g).
Proof. unfold type_alias, bounded. blinds'. Qed.
Lemma blind_constant : blind (constant g).
Proof. unfold constant. blinds'. Qed.
Lemma blind_macro_call : blind (macro_call g).
Proof.
  intros ts ts' H. unfold macro_call.
  assert (P : blind (g (NPath true);;; op "!";;; opt ident)) by blinds'.
  pose proof (P _ _ H) as K. destruct ((g (NPath true);;; op "!";;; opt ident) ts) as [r|], ((g (NPath true);;; op "!";;; opt ident) ts') as [r'|];
    cbn [agree] in K; try contradiction; [|exact I].
  destruct K as [|t t' q q' Ht K]; [exact I|]. destruct Ht as [| | | |d l l' Hl]; try exact I.
  destruct d; try exact (blind_op ";" _ _ K). exact K.
Qed.
Lemma three_ways {A} (c1 c2 c3 : list tt -> list tt -> A) (p q m : parser) r r' ts ts' :
  blind p -> blind q -> blind m -> L r r' ->
  agree2 any
    (match p r, q r, m r with
     | Some x, _, _ => Some (c1 ts x, x) | None, Some x, _ => Some (c2 ts x, x) | None, None, Some x => Some (c3 ts x, x) | None, None, None => None
     end)
    (match p r', q r', m r' with
     | Some x, _, _ => Some (c1 ts' x, x) | None, Some x, _ => Some (c2 ts' x, x) | None, None, Some x => Some (c3 ts' x, x) | None, None, None => None
     end).
Proof.
  intros P Q M H. pose proof (P _ _ H) as K1. pose proof (Q _ _ H) as K2. pose proof (M _ _ H) as K3.
  destruct (p r), (p r'); cbn in K1; try contradiction; [split; [exact I|exact K1]|].
  destruct (q r), (q r'); cbn in K2; try contradiction; [split; [exact I|exact K2]|].
  destruct (m r), (m r'); cbn in K3; try contradiction; [split; [exact I|exact K3]|exact I].
Qed.
Lemma blind_trait_item : blind2 any (trait_item_ g stmts).
Proof.
  intros ts ts' H. unfold trait_item_. attrs H a a' r r'. rewrite (blind_is_fn _ _ K). destruct (is_fn r').
  - assert (F : forall t t', same_but_strings t t' -> is_brace t || is_semicolon t = is_brace t' || is_semicolon t').
    { intros t t' X. now rewrite (same_is_brace _ _ X), (same_is_semicolon _ _ X). }
    pose proof (blind_span _ F _ _ K) as Q.
    destruct (span _ r) as [[[sig t] s]|], (span _ r') as [[[sig' t'] s']|]; cbn in Q; try contradiction; [|exact I].
    destruct Q as (K1 & Kt & K2). rewrite (blind_all _ (G NSig) _ _ K1).
    destruct Kt as [| | | |d b b' Hb]; try (destruct (all (g NSig) sig'); [split; [exact I|exact K2]|exact I]).
    destruct d; try (destruct (all (g NSig) sig'); [split; [exact I|exact K2]|exact I]).
    destruct (all (g NSig) sig'); [|exact I]. inner_attrs Hb ia ia' c c'. call0 S0 stmts K0 l l'. split; [exact I|exact K2].
  - exact (three_ways (fun ts x => TOther KTraitType (upto ts x)) (fun ts x => TOther KTraitConst (upto ts x))
             (fun ts x => TOther KTraitMacro (upto ts x)) _ _ _ _ _ ts ts'
             (blind_until_semicolon _ blind_type_alias) (blind_until_semicolon _ blind_constant) blind_macro_call K).
Qed.
Lemma blind_impl_item : blind2 any (impl_item_ g stmts).
Proof.
  intros ts ts' H. unfold impl_item_. attrs H a a' r0 r0'. call blind_vis vis_ K r1 r1'.
  assert (D : L (snd (match word "default" r1 with Some r => (true, r) | None => (false, r1) end))
                (snd (match word "default" r1' with Some r => (true, r) | None => (false, r1') end))).
  { pose proof (blind_word "default" _ _ K0) as Q. destruct (word "default" r1), (word "default" r1'); cbn in *; try contradiction; assumption. }
  destruct (match word "default" r1 with Some r => (true, r) | None => (false, r1) end) as [d r].
  destruct (match word "default" r1' with Some r => (true, r) | None => (false, r1') end) as [d' r']. cbn [snd] in D.
  rewrite (blind_is_fn _ _ D). destruct (is_fn r').
  - pose proof (blind_function _ _ D) as Q.
    destruct (function_ g stmts r) as [[[[? ?] ?] ?]|], (function_ g stmts r') as [[[[? ?] ?] ?]|]; cbn; try contradiction; auto.
    split; [exact I|exact Q].
  - exact (three_ways (fun ts x => MOther KImplType (upto ts x)) (fun ts x => MOther KImplConst (upto ts x))
             (fun ts x => MOther KImplMacro (upto ts x)) _ _ _ _ _ ts ts'
             (blind_until_semicolon _ blind_type_alias) (blind_until_semicolon _ blind_constant) blind_macro_call D).
Qed.
Lemma blind_foreign_item : blind2 any (foreign_item_ g).
Proof.
  intros ts ts' H. unfold foreign_item_. attrs H a a' r0 r0'. call blind_vis vis_ K r r'.
  pose proof (blind_until_semicolon _ (G NSig) _ _ K0) as K1.
  assert (P : blind (word "static" ;;; opt (word "mut") ;;; ident ;;; op ":" ;;; g (NType true))) by blinds'.
  pose proof (blind_until_semicolon _ P _ _ K0) as K2.
  destruct (until_semicolon (g NSig) r), (until_semicolon (g NSig) r'); cbn in K1; try contradiction; [split; [exact I|exact K1]|].
  destruct (until_semicolon _ r), (until_semicolon _ r'); cbn in K2; try contradiction; [split; [exact I|exact K2]|exact I].
Qed.

Lemma blind_pair_of (p : parser) : blind p -> forall ts ts', L ts ts' ->
  L (fst (match p ts with Some r => (upto ts r, r) | None => ([], ts) end))
    (fst (match p ts' with Some r => (upto ts' r, r) | None => ([], ts') end)) /\
  L (snd (match p ts with Some r => (upto ts r, r) | None => ([], ts) end))
    (snd (match p ts' with Some r => (upto ts' r, r) | None => ([], ts') end)).
Proof.
  intros P ts ts' H. pose proof (P _ _ H) as K. destruct (p ts), (p ts'); cbn in *; try contradiction; [|auto].
  split; [apply L_upto; assumption|assumption].
Qed.
Lemma blind_where_of ts ts' : L ts ts' -> L (fst (where_of g ts)) (fst (where_of g ts')) /\ L (snd (where_of g ts)) (snd (where_of g ts')).
Proof. apply (blind_pair_of (g NWhere)), G. Qed.
Lemma blind_generics_of ts ts' : L ts ts' -> L (fst (generics_of g ts)) (fst (generics_of g ts')) /\ L (snd (generics_of g ts)) (snd (generics_of g ts')).
Proof. apply (blind_pair_of (opt (g NGenerics))). blinds'. Qed.
Ltac pair_of F p H x x' r r' :=
  let K := fresh "K" in let X := fresh "X" in
  pose proof (F _ _ H) as K;
  match type of H with Forall2 _ ?u ?v => destruct (p u) as [x r], (p v) as [x' r'] end; cbn [fst snd] in K; destruct K as [X K].

Lemma blind_bounds n : forall ts ts', L ts ts' ->
  match bounds_of g n ts, bounds_of g n ts' with
  | Some (l, t, r), Some (l', t', r') => L r r'
  | None, None => True
  | _, _ => False
  end.
Proof.
  induction n as [|n IH]; intros ts ts' H; [exact I|]. cbn [bounds_of]. call (G NBound) (g NBound) H r r'.
  generalize (blind_op "+" _ _ K). destruct (op "+" r) as [s|], (op "+" r') as [s'|]; cbn [agree]; try tauto.
  intros Q. pose proof (IH _ _ Q) as X.
  destruct (bounds_of g n s) as [[[? ?] ?]|], (bounds_of g n s') as [[[? ?] ?]|]; try contradiction; auto.
Qed.

Lemma blind_struct a a' v v' r r' : L r r' -> agree2 any (struct_ g a v r) (struct_ g a' v' r').
Proof.
  intros H. unfold struct_. destruct H as [|t t' r0 r0' Ht H]; [exact I|]. destruct Ht; try exact I.
  destruct (plain_ident x); [|exact I]. pair_of blind_generics_of (generics_of g) H p p' r1 r1'.
  pair_of blind_where_of (where_of g) K w w' r2 r2'. call2 blind_fields (fields_ g) K0 f f' r3 r3'.
  assert (Q : L (snd (match w with [] => where_of g r3 | _ => (w, r3) end)) (snd (match w' with [] => where_of g r3' | _ => (w', r3') end))).
  { destruct X0; [|exact K1]. apply blind_where_of, K1. }
  destruct (match w with [] => _ | _ => _ end) as [w1 r4], (match w' with [] => _ | _ => _ end) as [w1' r4']. cbn [snd] in Q.
  destruct f, f'; try contradiction; try (split; [exact I|assumption]);
    call (blind_op ";") (op ";") Q r5 r5'; split; try exact I; assumption.
Qed.
Lemma blind_enum a a' v v' r r' : L r r' -> agree2 any (enum_ g a v r) (enum_ g a' v' r').
Proof.
  intros H. unfold enum_. destruct H as [|t t' r0 r0' Ht H]; [exact I|]. destruct Ht; try exact I.
  pair_of blind_generics_of (generics_of g) H p p' r1 r1'. pair_of blind_where_of (where_of g) K w w' r2 r2'.
  destruct K0 as [|t t' r3 r3' Ht K0]; [exact I|]. destruct Ht as [| | | |d l l' Hl]; try exact I. destruct d; try exact I.
  destruct (plain_ident x); [|exact I].
  pose proof (blind_whole_separated any _ blind_variant _ _ Hl) as Q. cbn beta in Q.
  destruct (separated _ _ l) as [[]|], (separated _ _ l') as [[]|]; cbn in Q |- *; try contradiction; auto using conj.
Qed.
Lemma blind_union a a' v v' r r' : L r r' -> agree2 any (union_ g a v r) (union_ g a' v' r').
Proof.
  intros H. unfold union_. destruct H as [|t t' r0 r0' Ht H]; [exact I|]. destruct Ht; try exact I.
  pair_of blind_generics_of (generics_of g) H p p' r1 r1'. pair_of blind_where_of (where_of g) K w w' r2 r2'.
  destruct K0 as [|t t' r3 r3' Ht K0]; [exact I|]. destruct Ht as [| | | |d l l' Hl]; try exact I. destruct d; try exact I.
  destruct (plain_ident x); [|exact I].
  pose proof (blind_whole_separated any _ (blind_field true) _ _ Hl) as Q. cbn beta in Q.
  destruct (separated _ _ l) as [[]|], (separated _ _ l') as [[]|]; cbn in Q |- *; try contradiction; auto using conj.
Qed.
Lemma blind_trait a a' v v' u au r r' : L r r' -> agree2 any (trait_ g stmts a v u au r) (trait_ g stmts a' v' u au r').
Proof.
  intros H. unfold trait_. destruct H as [|t t' r0 r0' Ht H]; [exact I|]. destruct Ht; try exact I.
  pair_of blind_generics_of (generics_of g) H p p' r1 r1'.
  assert (Q : match
      (match op ":" r1 with
       | Some s => match bounds_of g (List.length s) s with Some b => Some b | None => Some ([], false, s) end
       | None => Some ([], false, r1) end),
      (match op ":" r1' with
       | Some s => match bounds_of g (List.length s) s with Some b => Some b | None => Some ([], false, s) end
       | None => Some ([], false, r1') end)
    with Some (_, _, r), Some (_, _, r') => L r r' | None, None => True | _, _ => False end).
  { generalize (blind_op ":" _ _ K). destruct (op ":" r1) as [s|], (op ":" r1') as [s'|]; cbn [agree]; try tauto.
    intros Q. rewrite (L_length _ _ Q). pose proof (blind_bounds (List.length s') _ _ Q) as Y.
    destruct (bounds_of g _ s) as [[[? ?] ?]|], (bounds_of g _ s') as [[[? ?] ?]|]; try contradiction; auto. }
  destruct (match op ":" r1 with Some _ => _ | None => _ end) as [[[s t] r2]|],
    (match op ":" r1' with Some _ => _ | None => _ end) as [[[s' t'] r2']|]; try contradiction; [|exact I].
  pair_of blind_where_of (where_of g) Q w w' r3 r3'.
  destruct K0 as [|y y' r4 r4' Ht K0]; [exact I|]. destruct Ht as [| | | |d l l' Hl]; try exact I. destruct d; try exact I.
  inner_attrs Hl ia ia' c c'. destruct (plain_ident x); [|exact I].
  pose proof (blind_whole_sequence any _ blind_trait_item _ _ K1) as Y. cbn beta in Y.
  destruct (sequence _ _ c), (sequence _ _ c'); cbn in Y |- *; try contradiction; auto using conj.
Qed.
Lemma blind_impl a a' d u r r' : L r r' -> agree2 any (impl_ g stmts a d u r) (impl_ g stmts a' d u r').
Proof.
  intros H. unfold impl_. pair_of blind_generics_of (generics_of g) H p p' r1 r1'.
  assert (Q : L (snd (match op "!" r1 with Some r => (true, r) | None => (false, r1) end))
                (snd (match op "!" r1' with Some r => (true, r) | None => (false, r1') end))).
  { pose proof (blind_op "!" _ _ K) as Y. destruct (op "!" r1), (op "!" r1'); cbn in *; try contradiction; assumption. }
  destruct (match op "!" r1 with Some r => _ | None => _ end) as [bang r2], (match op "!" r1' with Some r => _ | None => _ end) as [bang' r2'].
  cbn [snd] in Q.
  assert (Fin : forall tr tr' ty ty' s s', L s s' -> agree2 any
     (let (w, r3) := where_of g s in
      match r3 with
      | TGroup Brace l :: r4 =>
          let (ia, l') := take_inner_attrs l in
          option_map (fun is => (IImpl (a ++ ia) d u {| g_params := p; g_where := w |} tr ty is, r4))
            (sequence (impl_item_ g stmts) (List.length l') l')
      | _ => None
      end)
     (let (w, r3) := where_of g s' in
      match r3 with
      | TGroup Brace l :: r4 =>
          let (ia, l') := take_inner_attrs l in
          option_map (fun is => (IImpl (a' ++ ia) d u {| g_params := p'; g_where := w |} tr' ty' is, r4))
            (sequence (impl_item_ g stmts) (List.length l') l')
      | _ => None
      end)).
  { intros tr tr' ty ty' s s' Y. pair_of blind_where_of (where_of g) Y w w' r3 r3'.
    destruct K0 as [|y y' r4 r4' Ht K0]; [exact I|]. destruct Ht as [| | | |dd l l' Hl]; try exact I. destruct dd; try exact I.
    inner_attrs Hl ia ia' c c'.
    pose proof (blind_whole_sequence any _ blind_impl_item _ _ K1) as Z. cbn beta in Z.
    destruct (sequence _ _ c), (sequence _ _ c'); cbn in Z |- *; try contradiction; auto using conj. }
  assert (P : blind (g NPathType ;;; word "for")) by blinds'.
  pose proof (P _ _ Q) as Y.
  destruct ((g NPathType ;;; word "for") r2) as [r3|], ((g NPathType ;;; word "for") r2') as [r3'|]; cbn [agree] in Y; try contradiction.
  - call (G (NType false)) (g (NType false)) Y r4 r4'. apply Fin, K0.
  - call (G (NType false)) (g (NType false)) Q r3 r3'. apply Fin, K0.
Qed.
Lemma blind_mod a a' v v' u r r' : L r r' -> agree2 any (mod_ items a v u r) (mod_ items a' v' u r').
Proof.
  intros H. unfold mod_. destruct H as [|t t' r0 r0' Ht H]; [exact I|]. destruct Ht; try exact I.
  assert (Semi : agree2 any (if plain_ident x then option_map (fun r'' => (IMod a v u x None, r'')) (op ";" r0) else None)
                   (if plain_ident x then option_map (fun r'' => (IMod a' v' u x None, r'')) (op ";" r0') else None)).
  { destruct (plain_ident x); [|exact I]. call (blind_op ";") (op ";") H s s'. split; [exact I|assumption]. }
  destruct H as [|y y' q q' Hy H]; [exact Semi|].
  destruct Hy as [| | | |d l l' Hl]; try exact Semi. destruct d; try exact Semi.
  inner_attrs Hl ia ia' c c'. destruct (plain_ident x); [|exact I]. call0 I0 items K m m'. split; [exact I|assumption].
Qed.
Lemma other_agrees ts ts' o o' : agree o o' ->
  agree2 any (option_map (fun r => (IOther (upto ts r), r)) o) (option_map (fun r => (IOther (upto ts' r), r)) o').
Proof. destruct o, o'; cbn; try tauto. intros H. split; [exact I|exact H]. Qed.

Lemma blind_item : blind2 any (item_ g stmts items).
Proof.
  intros ts ts' H. unfold item_. attrs H a a' r0 r0'. call blind_vis vis_ K r1 r1'.
  cbv zeta. rewrite (blind_is_fn _ _ K0). destruct (is_fn r1').
  { pose proof (blind_function _ _ K0) as Q.
    destruct (function_ g stmts r1) as [[[[? ?] ?] ?]|], (function_ g stmts r1') as [[[[? ?] ?] ?]|]; cbn; try contradiction; auto.
    split; [exact I|exact Q]. }
  assert (U : agree2 eq (Some (match word "unsafe" r1 with Some r => (true, r) | None => (false, r1) end))
                        (Some (match word "unsafe" r1' with Some r => (true, r) | None => (false, r1') end))).
  { pose proof (blind_word "unsafe" _ _ K0) as Y. destruct (word "unsafe" r1), (word "unsafe" r1'); cbn in *; try contradiction; auto. }
  destruct (match word "unsafe" r1 with Some r => _ | None => _ end) as [u r2],
    (match word "unsafe" r1' with Some r => _ | None => _ end) as [u' r2']. destruct U as [<- U].
  assert (AU : agree2 eq
     (Some (match (word "auto" ;;; unless (unless (word "trait"))) r2, word "auto" r2 with Some _, Some r => (true, r) | _, _ => (false, r2) end))
     (Some (match (word "auto" ;;; unless (unless (word "trait"))) r2', word "auto" r2' with Some _, Some r => (true, r) | _, _ => (false, r2') end))).
  { assert (P : blind (word "auto" ;;; unless (unless (word "trait")))) by blinds'.
    pose proof (P _ _ U) as Y. pose proof (blind_word "auto" _ _ U) as Z.
    destruct ((word "auto" ;;; unless (unless (word "trait"))) r2), ((word "auto" ;;; unless (unless (word "trait"))) r2'); cbn [agree] in Y; try contradiction;
      [|split; [reflexivity|exact U]].
    destruct (word "auto" r2), (word "auto" r2'); cbn [agree] in Z; try contradiction; split; auto. }
  destruct (match (word "auto" ;;; _) r2 with Some _ => _ | None => _ end) as [au r3],
    (match (word "auto" ;;; _) r2' with Some _ => _ | None => _ end) as [au' r3']. destruct AU as [<- AU].
  pose proof AU as AU0. destruct AU as [|t t' r r' Ht AU]; [exact I|]. destruct Ht as [k| | | |]; try exact I.
  destruct (str_eqb k (txt "struct")); [apply blind_struct, AU|].
  destruct (str_eqb k (txt "enum")); [apply blind_enum, AU|].
  destruct (str_eqb k (txt "trait")); [apply blind_trait, AU|].
  destruct (str_eqb k (txt "impl")); [apply blind_impl, AU|].
  destruct (str_eqb k (txt "mod")); [apply blind_mod, AU|].
  destruct (str_eqb k (txt "extern")).
  { assert (E : L (snd (match r with TLit (LStr x p) :: q => (Some (x, p), q) | _ => (None, r) end))
                  (snd (match r' with TLit (LStr x p) :: q => (Some (x, p), q) | _ => (None, r') end))).
    { pose proof AU as E. destruct AU as [|y y' q q' Hy AU]; [exact E|].
      destruct Hy as [| |[]| |]; try exact E; exact AU. }
    destruct (match r with [] => _ | _ :: _ => _ end) as [abi q], (match r' with [] => _ | _ :: _ => _ end) as [abi' q']. cbn [snd] in E.
    assert (Semi : agree2 any
       (option_map (fun r => (IOther (upto ts r), r)) (until_semicolon (word "extern" ;;; word "crate" ;;; rest_) (TIdent k :: r)))
       (option_map (fun r => (IOther (upto ts' r), r)) (until_semicolon (word "extern" ;;; word "crate" ;;; rest_) (TIdent k :: r')))).
    { apply other_agrees, blind_until_semicolon; [blinds'|exact AU0]. }
    destruct E as [|y y' s s' Hy E]; [exact Semi|]. destruct Hy as [| | | |d l l' Hl]; try exact Semi. destruct d; try exact Semi.
    inner_attrs Hl ia ia' c c'.
    pose proof (blind_whole_sequence any _ blind_foreign_item _ _ K1) as Z. cbn beta in Z.
    destruct (sequence _ _ c), (sequence _ _ c'); cbn in Z |- *; try contradiction; auto using conj. }
  destruct (str_eqb k (txt "union")).
  { pose proof (blind_union a a' (upto r0 r1) (upto r0' r1') _ _ AU) as Y.
    destruct (union_ g a (upto r0 r1) r) as [[? ?]|], (union_ g a' (upto r0' r1') r') as [[? ?]|]; exact Y. }
  destruct (str_eqb k (txt "static")); [apply other_agrees, blind_until_semicolon; [blinds'|exact AU0]|].
  destruct (str_eqb k (txt "const")); [apply other_agrees, blind_until_semicolon; [apply blind_constant|exact AU0]|].
  destruct (str_eqb k (txt "use")); [apply other_agrees, blind_until_semicolon; [blinds'|exact AU0]|].
  destruct (str_eqb k (txt "type")); [apply other_agrees, blind_until_semicolon; [apply blind_type_alias|exact AU0]|].
  destruct (str_eqb k (txt "macro_rules")); [apply other_agrees, blind_macro_call, AU0|exact I].
Qed.
Lemma blind_module_item : blind2 any (module_item g stmts items).
Proof.
  intros ts ts' H. unfold module_item. pose proof (blind_item _ _ H) as K.
  destruct (item_ g stmts items ts) as [[]|], (item_ g stmts items ts') as [[]|]; cbn [agree2] in K; try contradiction; [exact K|].
  apply other_agrees. refine ((_ : blind _) _ _ H). apply blind_then; [apply blind_attrs|apply blind_macro_call].
Qed.
Lemma blind_stmt : blind2 any (stmt_ g stmts items).
Proof.
  intros ts ts' H. unfold stmt_. cbv zeta.
  pose proof (blind_op ";" _ _ H) as K. destruct (op ";" ts), (op ";" ts'); cbn [agree] in K; try contradiction; [split; [exact I|exact K]|].
  pose proof (blind_item _ _ H) as K1.
  destruct (item_ g stmts items ts) as [[]|], (item_ g stmts items ts') as [[]|]; cbn [agree2] in K1; try contradiction; [split; [exact I|exact (proj2 K1)]|].
  pose proof (G NLet _ _ H) as K2. destruct (g NLet ts), (g NLet ts'); cbn [agree] in K2; try contradiction; [split; [exact I|exact K2]|].
  assert (P : blind (attrs_ ;;; macro_call g)) by (apply blind_then; [apply blind_attrs|apply blind_macro_call]).
  pose proof (P _ _ H) as K3.
  destruct ((attrs_ ;;; macro_call g) ts), ((attrs_ ;;; macro_call g) ts'); cbn [agree] in K3; try contradiction; [split; [exact I|exact K3]|].
  assert (Q : blind (attrs_ ;;; g NBlockLike ;;; unless (op "." <|> op "?"))) by blinds'.
  pose proof (Q _ _ H) as K4.
  destruct ((attrs_ ;;; g NBlockLike ;;; unless (op "." <|> op "?")) ts) as [r|],
    ((attrs_ ;;; g NBlockLike ;;; unless (op "." <|> op "?")) ts') as [r'|]; cbn [agree] in K4; try contradiction.
  - pose proof (blind_op ";" _ _ K4) as K5. destruct (op ";" r), (op ";" r'); cbn [agree] in K5; try contradiction; split; try exact I; assumption.
  - pose proof (G (NExpr true) _ _ H) as K5. destruct (g (NExpr true) ts) as [r|], (g (NExpr true) ts') as [r'|]; cbn [agree] in K5; try contradiction; [|exact I].
    pose proof K5 as K6. destruct K5; [split; [exact I|constructor]|].
    pose proof (blind_op ";" _ _ K6) as K7. destruct (op ";" (x :: l)), (op ";" (y :: l')); cbn [agree] in K7; try contradiction; [split; [exact I|exact K7]|exact I].
Qed.
End Items.

Lemma blind_stmts fuel : blind0 (RustGrammar.stmts fuel).
Proof.
  induction fuel as [|fuel IH]; [intros ts ts' _; exact I|].
  intros ts ts' H. cbn [RustGrammar.stmts].
  set (blk := fun b => match RustGrammar.stmts fuel b with Some _ => true | None => false end).
  assert (B : forall b b', L b b' -> blk b = blk b').
  { intros b b' Hb. unfold blk. pose proof (IH _ _ Hb) as K.
    destruct (RustGrammar.stmts fuel b), (RustGrammar.stmts fuel b'); cbn in K; try contradiction; reflexivity. }
  refine (blind_whole_sequence any _ _ _ _ H). apply blind_stmt; [intros n; apply blind_go, B|exact IH|].
  clear ts ts' H.
  assert (X : forall k, blind0 ((fix items (k : nat) (ts : list tt) : option (list item) :=
      match k with
      | 0 => None
      | S k' => sequence (module_item (go blk fuel) (RustGrammar.stmts fuel) (items k')) (List.length ts) ts
      end) k)).
  { intros k. induction k as [|k IHk]; [intros ts ts' _; exact I|].
    intros ts ts' H. refine (blind_whole_sequence any _ _ _ _ H). apply blind_module_item; [intros n; apply blind_go, B|exact IH|exact IHk]. }
  apply X.
Qed.
