(** The grammar of RustGrammar.v reads renamed tokens as it reads the tokens, if the words of
    the grammar are spared. *)
From Coq Require Import String Lia.
From Verif Require Import Base BaseFacts Token Item Parse Concrete RustGrammar SpecRename RenameWalk.
Open Scope list_scope.

Definition grammar_words : list str := rust_keywords ++ map txt ["auto"; "default"; "union"; "macro_rules"; "deprecated"; "since"; "note"]%string.
Definition is_grammar_word (w : str) : bool := existsb (str_eqb w) grammar_words.

Section Rename.
Context (r : naming) (W : Forall (spared r) grammar_words) (K : forall v p, on_literals r (LStr v p) = LStr v p) (J : forall l m, on_literals r l = on_literals r m -> l = m).
Notation rename := (rename r).
Notation rename1 := (rename1 r).

Lemma eqb_rename w x : is_grammar_word w = true -> str_eqb (r x) w = str_eqb x w.
Proof.
  intros H. apply existsb_exists in H as (w' & Hi & E). apply str_eqb_eq in E. subst w'.
  assert (E0 := proj1 (Forall_forall _ _) W _ Hi x). destruct (str_eqb x w) eqn:E.
  - apply str_eqb_eq in E. apply str_eqb_eq, E0, E.
  - destruct (str_eqb (r x) w) eqn:F; [|reflexivity]. apply str_eqb_eq in F. apply E0 in F. apply str_eqb_eq in F. congruence.
Qed.
Lemma eqb_sym a b : str_eqb a b = str_eqb b a.
Proof.
  destruct (str_eqb a b) eqn:E, (str_eqb b a) eqn:F; try reflexivity; [apply str_eqb_eq in E; subst b|apply str_eqb_eq in F; subst b];
    rewrite (proj2 (str_eqb_eq a a) eq_refl) in *; discriminate.
Qed.
Lemma existsb_rename l x : forallb is_grammar_word l = true -> existsb (str_eqb (r x)) l = existsb (str_eqb x) l.
Proof.
  induction l as [|w l IH]; [reflexivity|]. cbn [forallb existsb]. intros H. apply andb_prop in H as [H1 H2]. rewrite eqb_rename, IH by assumption. reflexivity.
Qed.
Lemma plain_rename x : plain_ident (r x) = plain_ident x.
Proof. unfold plain_ident. rewrite existsb_rename by (vm_compute; reflexivity). reflexivity. Qed.
Lemma segment_rename x : segment_ident (r x) = segment_ident x.
Proof. unfold segment_ident. rewrite plain_rename, existsb_rename by (vm_compute; reflexivity). reflexivity. Qed.

(** Fails and succeeds alike, with renamed remainders; also with renamed results. *)
Definition follows (p : parser) : Prop := forall ts, p (rename ts) = option_map rename (p ts).
Definition both {A} (h : A -> A) (x : A * list tt) : A * list tt := (h (fst x), rename (snd x)).
Definition yields {A} (h : A -> A) (p : list tt -> option (A * list tt)) : Prop := forall ts, p (rename ts) = option_map (both h) (p ts).
Definition makes {A} (h : A -> A) (p : list tt -> option A) : Prop := forall ts, p (rename ts) = option_map h (p ts).

Lemma upto_rename a b : upto (rename a) (rename b) = rename (upto a b).
Proof. unfold upto. rewrite !rename_length. apply rename_firstn. Qed.
Ltac show := cbn [SpecRename.rename map SpecRename.rename1]; repeat match goal with |- context [map (SpecRename.rename1 r) ?x] => change (map (SpecRename.rename1 r) x) with (rename x) end.

Lemma f_word x : is_grammar_word (txt x) = true -> follows (word x).
Proof.
  intros H [|[y|c j|l|d g] ts]; try reflexivity. unfold word. show.
  rewrite eqb_sym, eqb_rename, eqb_sym by exact H. destruct (str_eqb (txt x) y); reflexivity.
Qed.
Lemma f_one_of l : forallb is_grammar_word (words_in [] (txt l)) = true -> follows (one_of l).
Proof. intros H [|[y|c j|x|d g] ts]; try reflexivity. unfold one_of. show. rewrite existsb_rename by exact H. destruct (existsb _ _); reflexivity. Qed.
Lemma f_ident : follows ident.
Proof. intros [|[y|c j|x|d g] ts]; try reflexivity. unfold ident. show. rewrite plain_rename. destruct (plain_ident y); reflexivity. Qed.
Lemma f_segment : follows (fun ts => match ts with TIdent x :: r => if segment_ident x then Some r else None | _ => None end).
Proof. intros [|[y|c j|x|d g] ts]; try reflexivity. show. rewrite segment_rename. destruct (segment_ident y); reflexivity. Qed.
Lemma f_ch x : follows (ch x).
Proof. intros [|[y|c j|l|d g] ts]; try reflexivity. unfold ch. show. destruct (N.eqb _ _); reflexivity. Qed.
Lemma f_op_chars o : follows (op_chars o).
Proof.
  induction o as [|c o IH]; intros ts; [reflexivity|].
  destruct ts as [|[y|d j|l|d g] ts]; try (destruct o; reflexivity).
  destruct o as [|c' o].
  - show. cbn [op_chars]. destruct (N.eqb c d && negb j); reflexivity.
  - show. change (op_chars (c :: c' :: o) (TPunct d j :: rename ts)) with (if N.eqb c d && j then op_chars (c' :: o) (rename ts) else None).
    change (op_chars (c :: c' :: o) (TPunct d j :: ts)) with (if N.eqb c d && j then op_chars (c' :: o) ts else None).
    destruct (N.eqb c d && j); [apply IH|reflexivity].
Qed.
Lemma f_op x : follows (op x).
Proof. apply f_op_chars. Qed.
Lemma f_lifetime : follows lifetime.
Proof. intros [|[y|c []|l|d g] [|[y'|c' j'|l'|d' g'] ts]]; try reflexivity. unfold lifetime. show. destruct (N.eqb c 39); reflexivity. Qed.
Lemma y_group d : yields rename (group d).
Proof. intros [|[y|c j|l|d' g] ts]; try reflexivity. unfold group. show. destruct (delim_eqb d d'); reflexivity. Qed.
Lemma f_then f g : follows f -> follows g -> follows (f ;;; g).
Proof. intros F G ts. unfold then_. rewrite F. destruct (f ts); [apply G|reflexivity]. Qed.
Lemma f_or f g : follows f -> follows g -> follows (f <|> g).
Proof. intros F G ts. unfold or_. rewrite F. destruct (f ts); [reflexivity|apply G]. Qed.
Lemma f_some : follows Some.
Proof. intros ts. reflexivity. Qed.
Lemma f_none : follows (fun _ => None).
Proof. intros ts. reflexivity. Qed.
Lemma f_opt f : follows f -> follows (opt f).
Proof. intros F. apply f_or; [exact F|apply f_some]. Qed.
Lemma f_all f : follows f -> forall ts, all f (rename ts) = all f ts.
Proof. intros F ts. unfold all. rewrite F. destruct (f ts) as [[|]|]; reflexivity. Qed.
Lemma f_inside d f : follows f -> follows (inside d f).
Proof.
  intros F ts. unfold inside. rewrite y_group. destruct (group d ts) as [[g q]|]; [|reflexivity]. cbn [option_map both fst snd]. rewrite (f_all f F).
  destruct (all f g); reflexivity.
Qed.
Lemma f_any_group : follows any_group.
Proof. intros [|[y|c j|l|d g] ts]; reflexivity. Qed.
Lemma f_literal : follows literal.
Proof. intros [|[y|c j|l|d g] ts]; reflexivity. Qed.
(** Strings stay, and nothing else becomes one. *)
Lemma string_kept {A} (l : lit) (f : str -> str -> A) (e : A) :
  match on_literals r l with LStr v p => f v p | _ => e end = match l with LStr v p => f v p | _ => e end.
Proof.
  destruct (on_literals r l) as [v p|d x|x] eqn:E.
  - rewrite <- K in E. apply J in E. subst l. reflexivity.
  - destruct l as [v p|? ?|?]; [rewrite K in E; discriminate|reflexivity|reflexivity].
  - destruct l as [v p|? ?|?]; [rewrite K in E; discriminate|reflexivity|reflexivity].
Qed.
Lemma f_string_lit : follows string_lit.
Proof.
  intros [|[y|c j|l|d g] ts]; try reflexivity. unfold string_lit. show. rewrite (string_kept l (fun _ _ => Some (rename ts)) None). destruct l; reflexivity.
Qed.
Lemma f_rest : follows rest_.
Proof. intros ts. reflexivity. Qed.
Lemma f_unless f : follows f -> follows (unless f).
Proof. intros F ts. unfold unless. rewrite F. destruct (f ts); reflexivity. Qed.
Lemma f_at_end : follows at_end.
Proof. intros [|]; reflexivity. Qed.
Lemma f_binary_operator : follows binary_operator.
Proof.
  unfold binary_operator. induction binary_operators as [|o l IH]; [apply f_none|].
  cbn [fold_right]. apply f_or; [apply f_op|exact IH].
Qed.
Definition both_attrs (x : list attr * list tt) : list attr * list tt := (rename_attrs r (fst x), rename (snd x)).
Lemma take_attrs_rename : forall ts, take_attrs (rename ts) = both_attrs (take_attrs ts).
Proof.
  fix F 1. intros [|[y|c j|l|d g] [|[y'|c' j'|l'|[] g'] ts]]; try reflexivity. show. cbn [take_attrs].
  destruct (N.eqb c 35); [|reflexivity]. rewrite F. destruct (take_attrs ts). reflexivity.
Qed.
Lemma take_inner_rename : forall ts, take_inner_attrs (rename ts) = both_attrs (take_inner_attrs ts).
Proof.
  fix F 1. intros [|[y|c j|l|d g] [|[y'|c' j'|l'|d' g'] [|[y2|c2 j2|l2|[] g2] ts]]]; try reflexivity. show. cbn [take_inner_attrs].
  destruct (N.eqb c 35 && N.eqb c' 33); [|reflexivity]. rewrite F. destruct (take_inner_attrs ts). reflexivity.
Qed.
Lemma f_attrs : follows attrs_.
Proof. intros ts. unfold attrs_. rewrite take_attrs_rename. reflexivity. Qed.
Lemma f_vis : follows vis_.
Proof.
  apply f_opt, f_then; [apply f_word; vm_compute; reflexivity|]. apply f_opt. intros ts. rewrite y_group.
  destruct (group Paren ts) as [[g q]|]; [|reflexivity]. cbn [option_map both fst snd].
  rewrite (f_one_of "crate self super in") by (vm_compute; reflexivity). destruct (one_of _ g); reflexivity.
Qed.

Ltac grammar :=
  repeat first
    [ assumption
    | apply f_word; vm_compute; reflexivity | apply f_one_of; vm_compute; reflexivity | apply f_ident | apply f_segment | apply f_ch | apply f_op
    | apply f_lifetime | apply f_any_group | apply f_literal | apply f_string_lit | apply f_rest
    | apply f_at_end | apply f_binary_operator | apply f_attrs | apply f_vis
    | apply f_opt | apply f_then | apply f_or | apply f_inside | apply f_unless
    | apply f_some | apply f_none ].

Section Go.
Context (block : list tt -> bool) (B : forall ts, block (rename ts) = block ts).
Lemma f_go fuel : forall n, follows (go block fuel n).
Proof.
  induction fuel as [|fuel IH]; intros n; [apply f_none|].
  assert (E : forall p : parser, follows p -> (forall ts, go block (S fuel) n ts = p ts) -> follows (go block (S fuel) n)).
  { intros p P Q ts. rewrite !Q. apply P. }
  destruct n; (eapply E; [|intros ts; cbn [go]; reflexivity]); try (repeat (grammar || apply IH || match goal with |- follows (if ?b then _ else _) => destruct b end); fail).
  - intros ts. rewrite IH. destruct (go block fuel (NPath false) ts) as [q|]; [|reflexivity]. cbn [option_map]. rewrite upto_rename.
    assert (O : follows (opt (inside Paren (go block fuel (NList (NType true))) ;;; go block fuel NReturn))) by repeat (grammar || apply IH).
    unfold SpecRename.rename at 1. rewrite <- map_rev. destruct (rev (upto ts q)) as [|[y|c j|l|d g] l0]; cbn [map SpecRename.rename1]; try apply O. reflexivity.
  - intros ts. rewrite y_group. destruct (group Brace ts) as [[b q]|]; [|reflexivity]. cbn [option_map both fst snd]. rewrite B. destruct (block b); reflexivity.
Qed.
End Go.

Lemma m_separated {A} (h : A -> A) f : yields h f -> forall n, makes (fun x : list A * bool => (map h (fst x), snd x)) (separated f n).
Proof.
  intros F. induction n as [|n IH]; intros ts; [destruct ts; reflexivity|]. destruct ts as [|t ts]; [reflexivity|].
  change (separated f (S n) (rename (t :: ts))) with (match f (rename (t :: ts)) with
      | Some (x, []) => Some ([x], false)
      | Some (x, q) => match op "," q with
          | Some [] => Some ([x], true)
          | Some r' => match separated f n r' with Some (l, b) => Some (x :: l, b) | None => None end
          | None => None end
      | None => None end).
  cbn [separated]. rewrite F. destruct (f (t :: ts)) as [[x q]|]; [|reflexivity]. cbn [option_map both fst snd].
  destruct q as [|t' q]; [reflexivity|]. change (rename (t' :: q)) with (rename1 t' :: rename q). cbv iota beta. change (rename1 t' :: rename q) with (rename (t' :: q)).
  rewrite f_op. destruct (op "," (t' :: q)) as [[|t2 q2]|]; [reflexivity| |reflexivity]. cbn [option_map].
  change (match rename (t2 :: q2) with [] => Some ([h x], true) | _ => match separated f n (rename (t2 :: q2)) with Some (l, b) => Some (h x :: l, b) | None => None end end)
    with (match separated f n (rename (t2 :: q2)) with Some (l, b) => Some (h x :: l, b) | None => None end).
  rewrite IH. destruct (separated f n (t2 :: q2)) as [[l b]|]; reflexivity.
Qed.
Lemma m_sequence {A} (h : A -> A) f : yields h f -> forall n, makes (map h) (sequence f n).
Proof.
  intros F. induction n as [|n IH]; intros ts; [destruct ts; reflexivity|]. destruct ts as [|t ts]; [reflexivity|].
  change (sequence f (S n) (rename (t :: ts))) with (match f (rename (t :: ts)) with Some (x, q) => option_map (cons x) (sequence f n q) | None => None end).
  cbn [sequence]. rewrite F. destruct (f (t :: ts)) as [[x q]|]; [|reflexivity]. cbn [option_map both fst snd]. rewrite IH. destruct (sequence f n q); reflexivity.
Qed.
Lemma m_whole_sequence {A} (h : A -> A) f : yields h f -> makes (map h) (fun ts => sequence f (List.length ts) ts).
Proof. intros F ts. cbn beta. rewrite rename_length. apply m_sequence, F. Qed.
Lemma span_rename f : (forall t, f (rename1 t) = f t) -> forall ts,
  span f (rename ts) = option_map (fun '(a, t, b) => (rename a, rename1 t, rename b)) (span f ts).
Proof.
  intros F ts. induction ts as [|t ts IH]; [reflexivity|]. show. cbn [span]. rewrite F. destruct (f t); [reflexivity|].
  rewrite IH. destruct (span f ts) as [[[a x] b]|]; reflexivity.
Qed.
Lemma is_brace_rename t : is_brace (rename1 t) = is_brace t.
Proof. destruct t; reflexivity. Qed.
Lemma is_semicolon_rename t : is_semicolon (rename1 t) = is_semicolon t.
Proof. destruct t; reflexivity. Qed.

Section Items.
Context (g : nt -> parser) (stmts : list tt -> option (list stmt)) (items : list tt -> option (list item)).
Context (G : forall n, follows (g n)) (S0 : makes (rename_block r) stmts) (I0 : makes (map (rename_item r)) items).

Ltac grammar' := repeat (grammar || apply G).
Ltac open_cons q := change (rename q) with (map rename1 q); cbn [map SpecRename.rename1]; repeat match goal with |- context [map (SpecRename.rename1 r) ?x] => change (map (SpecRename.rename1 r) x) with (rename x) end.
(** One token further. *)
Ltac head := cbn [SpecRename.rename map SpecRename.rename1]; repeat match goal with |- context [map (SpecRename.rename1 r) ?x] => change (map (SpecRename.rename1 r) x) with (rename x) end.
Ltac got := cbn [option_map both both_attrs fst snd].

Lemma is_fn_rename ts : is_fn (rename ts) = is_fn ts.
Proof.
  unfold is_fn.
  assert (P : follows (opt (word "const");;; opt (word "async");;; opt (word "unsafe");;;
                     opt (word "extern";;; opt string_lit);;; word "fn")) by grammar'.
  rewrite P. match goal with |- context [option_map _ ?x] => destruct x end; reflexivity.
Qed.
Lemma y_field named : yields (rename_field r) (field_ g named).
Proof.
  intros ts. unfold field_. rewrite take_attrs_rename. destruct (take_attrs ts) as [a r0]. got. rewrite f_vis.
  destruct (vis_ r0) as [r1|]; [|reflexivity]. got. destruct named.
  - destruct r1 as [|[x|c j|l|d q] r1]; try reflexivity. head. rewrite plain_rename. destruct (plain_ident x); [|reflexivity].
    rewrite f_op. destruct (op ":" r1) as [r2|]; [|reflexivity]. got. rewrite G. destruct (g (NType true) r2) as [r3|]; [|reflexivity]. got.
    change (TIdent (r x) :: rename r1) with (rename (TIdent x :: r1)). rewrite !upto_rename. reflexivity.
  - rewrite G. destruct (g (NType true) r1) as [r3|]; [|reflexivity]. got. rewrite !upto_rename. reflexivity.
Qed.
Lemma y_fields : yields (rename_fields r) (fields_ g).
Proof.
  intros ts. unfold fields_. destruct ts as [|[x|c j|l|[] l] ts]; try reflexivity; head; rewrite rename_length.
  - rewrite (m_separated _ _ (y_field false)). destruct (separated _ _ l) as [[]|]; reflexivity.
  - rewrite (m_separated _ _ (y_field true)). destruct (separated _ _ l) as [[]|]; reflexivity.
Qed.
Lemma y_variant : yields (rename_variant r) (variant_ g).
Proof.
  intros ts. unfold variant_. rewrite take_attrs_rename. destruct (take_attrs ts) as [a r0]. got.
  destruct r0 as [|[x|c j|l|d q] r1]; try reflexivity. head. rewrite plain_rename. destruct (plain_ident x); [|reflexivity].
  rewrite y_fields. destruct (fields_ g r1) as [[f r2]|]; [|reflexivity]. got. rewrite f_op. destruct (op "=" r2) as [r3|]; [|reflexivity]. got.
  rewrite G. destruct (g (NExpr true) r3) as [r4|]; [|reflexivity]. got. rewrite upto_rename. reflexivity.
Qed.
Definition both_function (x : list tt * list attr * list stmt * list tt) : list tt * list attr * list stmt * list tt :=
  let '(sig, ia, l, q) := x in (rename sig, rename_attrs r ia, rename_block r l, rename q).
Lemma y_function ts : function_ g stmts (rename ts) = option_map both_function (function_ g stmts ts).
Proof.
  unfold function_. rewrite (span_rename _ is_brace_rename). destruct (span is_brace ts) as [[[sig t] q]|]; [|reflexivity]. got.
  destruct t as [x|c j|l|[] b]; try reflexivity. head. rewrite (f_all _ (G NSig)). destruct (all (g NSig) sig); [|reflexivity].
  rewrite take_inner_rename. destruct (take_inner_attrs b) as [ia b']. got. rewrite S0. destruct (stmts b'); reflexivity.
Qed.
Lemma f_until_semicolon f : follows f -> follows (until_semicolon f).
Proof.
  intros F ts. unfold until_semicolon. rewrite (span_rename _ is_semicolon_rename). destruct (span is_semicolon ts) as [[[a t] q]|]; [|reflexivity]. got.
  rewrite (f_all f F). destruct (all f a); reflexivity.
Qed.
Lemma f_type_alias : follows (type_alias g).
Proof. unfold type_alias, bounded. grammar'. Qed.
Lemma f_constant : follows (constant g).
Proof. unfold constant. grammar'. Qed.
Lemma f_macro_call : follows (macro_call g).
Proof.
  intros ts. unfold macro_call. assert (P : follows (g (NPath true);;; op "!";;; opt ident)) by grammar'. rewrite P.
  destruct ((g (NPath true);;; op "!";;; opt ident) ts) as [[|[x|c j|l|[] b] q]|]; try reflexivity; cbn [option_map]; head; apply f_op.
Qed.
Lemma three_ways {A} (h : A -> A) (c1 c2 c3 : list tt -> A) (p q m : parser) ts s :
  follows p -> follows q -> follows m ->
  (forall x, h (c1 x) = c1 (rename x)) -> (forall x, h (c2 x) = c2 (rename x)) -> (forall x, h (c3 x) = c3 (rename x)) ->
  match p (rename s), q (rename s), m (rename s) with
  | Some x, _, _ => Some (c1 (upto (rename ts) x), x) | None, Some x, _ => Some (c2 (upto (rename ts) x), x)
  | None, None, Some x => Some (c3 (upto (rename ts) x), x) | None, None, None => None
  end = option_map (both h) (match p s, q s, m s with
  | Some x, _, _ => Some (c1 (upto ts x), x) | None, Some x, _ => Some (c2 (upto ts x), x)
  | None, None, Some x => Some (c3 (upto ts x), x) | None, None, None => None
  end).
Proof.
  intros P Q M H1 H2 H3. rewrite P, Q, M. destruct (p s); got; [rewrite upto_rename, <- H1; reflexivity|].
  destruct (q s); got; [rewrite upto_rename, <- H2; reflexivity|]. destruct (m s); got; [rewrite upto_rename, <- H3; reflexivity|reflexivity].
Qed.
Lemma rename_attrs_app a b : rename_attrs r a ++ rename_attrs r b = rename_attrs r (a ++ b).
Proof. symmetry. apply map_app. Qed.
Lemma y_trait_item : yields (rename_trait_item r) (trait_item_ g stmts).
Proof.
  intros ts. unfold trait_item_. rewrite take_attrs_rename. destruct (take_attrs ts) as [a q]. got. rewrite is_fn_rename. destruct (is_fn q).
  - rewrite (span_rename (fun t => is_brace t || is_semicolon t)) by (intros t; rewrite is_brace_rename, is_semicolon_rename; reflexivity).
    destruct (span _ q) as [[[sig t] s]|]; [|reflexivity]. got.
    destruct t as [x|c j|l|[] b]; head; rewrite (f_all _ (G NSig)); (destruct (all (g NSig) sig); [|reflexivity]); try reflexivity.
    rewrite take_inner_rename. destruct (take_inner_attrs b) as [ia b']. got. rewrite S0. destruct (stmts b'); [|reflexivity]. got. rewrite rename_attrs_app. reflexivity.
  - apply (three_ways (rename_trait_item r) (TOther KTraitType) (TOther KTraitConst) (TOther KTraitMacro)); try reflexivity;
      [apply f_until_semicolon, f_type_alias|apply f_until_semicolon, f_constant|apply f_macro_call].
Qed.
Definition flagged (x : bool * list tt) : bool * list tt := (fst x, rename (snd x)).
Lemma flag_rename p : follows p -> forall q,
  match p (rename q) with Some s => (true, s) | None => (false, rename q) end = flagged (match p q with Some s => (true, s) | None => (false, q) end).
Proof. intros F q. rewrite F. destruct (p q); reflexivity. Qed.
Lemma y_impl_item : yields (rename_impl_item r) (impl_item_ g stmts).
Proof.
  intros ts. unfold impl_item_. rewrite take_attrs_rename. destruct (take_attrs ts) as [a r0]. got. rewrite f_vis. destruct (vis_ r0) as [r1|]; [|reflexivity]. got.
  cbv zeta. rewrite (flag_rename (word "default")) by grammar'. destruct (match word "default" r1 with Some q => _ | None => _ end) as [d q]. cbn [flagged fst snd].
  rewrite is_fn_rename. destruct (is_fn q).
  - rewrite y_function. destruct (function_ g stmts q) as [[[[sig ia] body] q']|]; [|reflexivity]. cbn [option_map both_function]. rewrite rename_attrs_app, upto_rename. reflexivity.
  - apply (three_ways (rename_impl_item r) (MOther KImplType) (MOther KImplConst) (MOther KImplMacro)); try reflexivity;
      [apply f_until_semicolon, f_type_alias|apply f_until_semicolon, f_constant|apply f_macro_call].
Qed.
Lemma y_foreign_item : yields rename (foreign_item_ g).
Proof.
  intros ts. unfold foreign_item_. rewrite take_attrs_rename. destruct (take_attrs ts) as [a r0]. got. rewrite f_vis. destruct (vis_ r0) as [q|]; [|reflexivity]. got.
  rewrite (f_until_semicolon _ (G NSig)). rewrite (f_until_semicolon (word "static" ;;; opt (word "mut") ;;; ident ;;; op ":" ;;; g (NType true))) by grammar'.
  destruct (until_semicolon (g NSig) q); got; [rewrite upto_rename; reflexivity|].
  destruct (until_semicolon _ q); got; [rewrite upto_rename; reflexivity|reflexivity].
Qed.

Definition both_parts (x : list tt * list tt) : list tt * list tt := (rename (fst x), rename (snd x)).
Lemma where_rename ts : where_of g (rename ts) = both_parts (where_of g ts).
Proof. unfold where_of. rewrite G. destruct (g NWhere ts); cbn [option_map]; [rewrite upto_rename|]; reflexivity. Qed.
Lemma generics_rename ts : generics_of g (rename ts) = both_parts (generics_of g ts).
Proof. unfold generics_of. rewrite (f_opt (g NGenerics)) by apply G. destruct (opt (g NGenerics) ts); cbn [option_map]; [rewrite upto_rename|]; reflexivity. Qed.
Definition both_bounds (x : list (list tt) * bool * list tt) : list (list tt) * bool * list tt :=
  let '(l, t, q) := x in (map rename l, t, rename q).
Lemma bounds_rename n : forall ts, bounds_of g n (rename ts) = option_map both_bounds (bounds_of g n ts).
Proof.
  induction n as [|n IH]; intros ts; [reflexivity|]. cbn [bounds_of]. rewrite G. destruct (g NBound ts) as [q|]; [|reflexivity]. cbn [option_map].
  rewrite f_op. destruct (op "+" q) as [s|]; cbn [option_map]; [|rewrite upto_rename; reflexivity].
  rewrite IH, upto_rename. destruct (bounds_of g n s) as [[[l t] s']|]; reflexivity.
Qed.
Ltac parts := cbn [both_parts fst snd].
Lemma y_struct a v q : struct_ g (rename_attrs r a) (rename v) (rename q) = option_map (both (rename_item r)) (struct_ g a v q).
Proof.
  unfold struct_. destruct q as [|[x|c j|l|d q'] r0]; try reflexivity. head. rewrite plain_rename. destruct (plain_ident x); [|reflexivity].
  rewrite generics_rename. destruct (generics_of g r0) as [p r1]. parts. rewrite where_rename. destruct (where_of g r1) as [w r2]. parts.
  rewrite y_fields. destruct (fields_ g r2) as [[f r3]|]; [|reflexivity]. got.
  assert (E : match rename w with [] => where_of g (rename r3) | _ => (rename w, rename r3) end = both_parts (match w with [] => where_of g r3 | _ => (w, r3) end)).
  { destruct w; [apply where_rename|reflexivity]. }
  destruct f as [l t|l t|]; cbn [rename_fields]; [reflexivity| |]; rewrite E; destruct (match w with [] => _ | _ => _ end) as [w' r4]; parts;
    rewrite f_op; destruct (op ";" r4); reflexivity.
Qed.
Lemma y_enum a v q : enum_ g (rename_attrs r a) (rename v) (rename q) = option_map (both (rename_item r)) (enum_ g a v q).
Proof.
  unfold enum_. destruct q as [|[x|c j|l|d q'] r0]; try reflexivity. head.
  rewrite generics_rename. destruct (generics_of g r0) as [p r1]. parts. rewrite where_rename. destruct (where_of g r1) as [w r2]. parts.
  destruct r2 as [|[y|c j|l|[] l] r3]; try reflexivity. head. rewrite plain_rename. destruct (plain_ident x); [|reflexivity].
  rewrite rename_length, (m_separated _ _ y_variant). destruct (separated _ _ l) as [[]|]; reflexivity.
Qed.
Lemma y_union a v q : union_ g (rename_attrs r a) (rename v) (rename q) = option_map (both (rename_item r)) (union_ g a v q).
Proof.
  unfold union_. destruct q as [|[x|c j|l|d q'] r0]; try reflexivity. head.
  rewrite generics_rename. destruct (generics_of g r0) as [p r1]. parts. rewrite where_rename. destruct (where_of g r1) as [w r2]. parts.
  destruct r2 as [|[y|c j|l|[] l] r3]; try reflexivity. head. rewrite plain_rename. destruct (plain_ident x); [|reflexivity].
  rewrite rename_length, (m_separated _ _ (y_field true)). destruct (separated _ _ l) as [[]|]; reflexivity.
Qed.
Lemma y_trait a v u au q : trait_ g stmts (rename_attrs r a) (rename v) u au (rename q) = option_map (both (rename_item r)) (trait_ g stmts a v u au q).
Proof.
  unfold trait_. destruct q as [|[x|c j|l|d q'] r0]; try reflexivity. head.
  rewrite generics_rename. destruct (generics_of g r0) as [p r1]. parts.
  assert (E : match op ":" (rename r1) with
       | Some s => match bounds_of g (List.length s) s with Some b => Some b | None => Some ([], false, s) end
       | None => Some ([], false, rename r1) end = option_map both_bounds (match op ":" r1 with
       | Some s => match bounds_of g (List.length s) s with Some b => Some b | None => Some ([], false, s) end
       | None => Some ([], false, r1) end)).
  { rewrite f_op. destruct (op ":" r1) as [s|]; [|reflexivity]. cbn [option_map]. rewrite rename_length, bounds_rename. destruct (bounds_of g _ s); reflexivity. }
  rewrite E. destruct (match op ":" r1 with Some _ => _ | None => _ end) as [[[s t] r2]|]; [|reflexivity]. cbn [option_map both_bounds].
  rewrite where_rename. destruct (where_of g r2) as [w r3]. parts.
  destruct r3 as [|[y|c j|l|[] l] r4]; try reflexivity. head. rewrite take_inner_rename. destruct (take_inner_attrs l) as [ia l']. got.
  rewrite plain_rename. destruct (plain_ident x); [|reflexivity].
  rewrite rename_length, (m_sequence _ _ y_trait_item). destruct (sequence _ _ l'); [|reflexivity]. got. rewrite rename_attrs_app. reflexivity.
Qed.
Lemma y_impl a d u q : impl_ g stmts (rename_attrs r a) d u (rename q) = option_map (both (rename_item r)) (impl_ g stmts a d u q).
Proof.
  unfold impl_. rewrite generics_rename. destruct (generics_of g q) as [p r1]. parts. rewrite (flag_rename (op "!")) by apply f_op.
  destruct (match op "!" r1 with Some _ => _ | None => _ end) as [bang r2]. cbn [flagged fst snd]. cbv zeta.
  set (finish := fun a p tr ty r' => let (w, r3) := where_of g r' in
      match r3 with
      | TGroup Brace l :: r4 =>
          let (ia, l') := take_inner_attrs l in
          option_map (fun is => (IImpl (a ++ ia) d u {| g_params := p; g_where := w |} tr ty is, r4))
            (sequence (impl_item_ g stmts) (List.length l') l')
      | _ => None
      end).
  assert (F : forall tr ty s, finish (rename_attrs r a) (rename p) (option_map (rename_impl_trait r) tr) (rename ty) (rename s) =
    option_map (both (rename_item r)) (finish a p tr ty s)).
  { intros tr ty s. unfold finish. rewrite where_rename. destruct (where_of g s) as [w r3]. parts.
    destruct r3 as [|[y|c j|l|[] l] r4]; try reflexivity. head. rewrite take_inner_rename. destruct (take_inner_attrs l) as [ia l']. got.
    rewrite rename_length, (m_sequence _ _ y_impl_item). destruct (sequence _ _ l'); [|reflexivity]. got. rewrite rename_attrs_app. reflexivity. }
  assert (P : follows (g NPathType ;;; word "for")) by grammar'. rewrite P.
  destruct ((g NPathType ;;; word "for") r2) as [r3|]; cbn [option_map].
  - rewrite G. destruct (g (NType false) r3) as [r4|]; [|reflexivity]. cbn [option_map].
    assert (E : upto (rename r2) (kw "for" :: rename r3) = rename (upto r2 (kw "for" :: r3))).
    { rewrite <- upto_rename. unfold upto. cbn [SpecRename.rename map List.length]. reflexivity. }
    rewrite E, upto_rename. apply (F (Some (bang, upto r2 (kw "for" :: r3))) (upto r3 r4) r4).
  - rewrite G. destruct (g (NType false) r2) as [r3|]; [|reflexivity]. cbn [option_map]. rewrite upto_rename. apply (F None (upto r2 r3) r3).
Qed.
Lemma y_mod a v u q : mod_ items (rename_attrs r a) (rename v) u (rename q) = option_map (both (rename_item r)) (mod_ items a v u q).
Proof.
  unfold mod_. destruct q as [|[x|c j|l|d q'] r0]; try reflexivity.
  assert (Semi : (if plain_ident (r x) then option_map (fun r'' => (IMod (rename_attrs r a) (rename v) u (r x) None, r'')) (op ";" (rename r0)) else None) =
    option_map (both (rename_item r)) (if plain_ident x then option_map (fun r'' => (IMod a v u x None, r'')) (op ";" r0) else None)).
  { rewrite plain_rename, f_op. destruct (plain_ident x); [|reflexivity]. destruct (op ";" r0); reflexivity. }
  destruct r0 as [|[y|c j|l|[] l] r0]; try exact Semi. head. rewrite take_inner_rename. destruct (take_inner_attrs l) as [ia l']. got.
  rewrite plain_rename. destruct (plain_ident x); [|reflexivity]. rewrite I0. destruct (items l'); [|reflexivity]. got. rewrite rename_attrs_app. reflexivity.
Qed.
Lemma other_rename ts o : option_map (fun q => (IOther (upto (rename ts) q), q)) (option_map rename o) =
  option_map (both (rename_item r)) (option_map (fun q => (IOther (upto ts q), q)) o).
Proof. destruct o; [|reflexivity]. got. rewrite upto_rename. reflexivity. Qed.
Lemma y_item : yields (rename_item r) (item_ g stmts items).
Proof.
  intros ts. unfold item_. rewrite take_attrs_rename. destruct (take_attrs ts) as [a r0]. got. rewrite f_vis. destruct (vis_ r0) as [r1|]; [|reflexivity].
  cbn [option_map]. cbv zeta. rewrite is_fn_rename, upto_rename. destruct (is_fn r1).
  { rewrite y_function. destruct (function_ g stmts r1) as [[[[sig ia] body] q']|]; [|reflexivity]. cbn [option_map both_function]. rewrite rename_attrs_app. reflexivity. }
  rewrite (flag_rename (word "unsafe")) by grammar'. destruct (match word "unsafe" r1 with Some _ => _ | None => _ end) as [u r2]. cbn [flagged fst snd].
  assert (AU : match (word "auto" ;;; unless (unless (word "trait"))) (rename r2), word "auto" (rename r2) with Some _, Some q => (true, q) | _, _ => (false, rename r2) end =
    flagged (match (word "auto" ;;; unless (unless (word "trait"))) r2, word "auto" r2 with Some _, Some q => (true, q) | _, _ => (false, r2) end)).
  { assert (P : follows (word "auto" ;;; unless (unless (word "trait")))) by grammar'. rewrite P, (f_word "auto") by (vm_compute; reflexivity).
    destruct ((word "auto" ;;; unless (unless (word "trait"))) r2), (word "auto" r2); reflexivity. }
  rewrite AU. destruct (match (word "auto" ;;; _) r2 with Some _ => _ | None => _ end) as [au r3]. cbn [flagged fst snd].
  destruct r3 as [|[k|c j|l|d q'] q]; try reflexivity.
  change (rename (TIdent k :: q)) with (TIdent (r k) :: rename q). cbv iota beta. rewrite !eqb_rename by (vm_compute; reflexivity).
  change (TIdent (r k) :: rename q) with (rename (TIdent k :: q)).
  destruct (str_eqb k (txt "struct")); [apply y_struct|].
  destruct (str_eqb k (txt "enum")); [apply y_enum|].
  destruct (str_eqb k (txt "trait")); [apply y_trait|].
  destruct (str_eqb k (txt "impl")); [apply y_impl|].
  destruct (str_eqb k (txt "mod")); [apply y_mod|].
  destruct (str_eqb k (txt "extern")).
  { assert (E : match rename q with TLit (LStr x p) :: s => (Some (x, p), s) | _ => (None, rename q) end =
      (fun z => (fst z, rename (snd z))) (match q with TLit (LStr x p) :: s => (Some (x, p), s) | _ => (None, q) end)).
    { destruct q as [|[x|c j|l|d l] q]; try reflexivity. show. rewrite (string_kept l (fun x p => (Some (x, p), rename q)) (None, TLit (on_literals r l) :: rename q)).
      destruct l; reflexivity. }
    rewrite E. destruct (match q with [] => _ | _ :: _ => _ end) as [abi s]. cbn [fst snd].
    rewrite (f_until_semicolon (word "extern" ;;; word "crate" ;;; rest_)) by grammar'.
    destruct s as [|[x|c j|l|[] l] s]; try apply other_rename. head. rewrite take_inner_rename. destruct (take_inner_attrs l) as [ia l']. got.
    rewrite rename_length, (m_sequence _ _ y_foreign_item). destruct (sequence _ _ l'); [|reflexivity]. got. rewrite rename_attrs_app. reflexivity. }
  destruct (str_eqb k (txt "union")); [rewrite y_union; destruct (union_ g a (upto r0 r1) q); reflexivity|].
  destruct (str_eqb k (txt "static")); [rewrite f_until_semicolon by grammar'; apply other_rename|].
  destruct (str_eqb k (txt "const")); [rewrite f_until_semicolon by apply f_constant; apply other_rename|].
  destruct (str_eqb k (txt "use")); [rewrite f_until_semicolon by grammar'; apply other_rename|].
  destruct (str_eqb k (txt "type")); [rewrite f_until_semicolon by apply f_type_alias; apply other_rename|].
  destruct (str_eqb k (txt "macro_rules")); [rewrite f_macro_call; apply other_rename|reflexivity].
Qed.
Lemma y_module_item : yields (rename_item r) (module_item g stmts items).
Proof.
  intros ts. unfold module_item. rewrite y_item. destruct (item_ g stmts items ts) as [[]|]; [reflexivity|]. cbn [option_map].
  rewrite (f_then attrs_ (macro_call g) f_attrs f_macro_call). apply other_rename.
Qed.
Lemma y_stmt : yields (rename_stmt r) (stmt_ g stmts items).
Proof.
  intros ts. unfold stmt_. cbv zeta.
  assert (Fin : forall q, Some (SOther (upto (rename ts) (rename q)), rename q) = option_map (both (rename_stmt r)) (Some (SOther (upto ts q), q))).
  { intros q. rewrite upto_rename. reflexivity. }
  rewrite f_op. destruct (op ";" ts) as [q|]; [apply Fin|]. cbn [option_map].
  rewrite y_item. destruct (item_ g stmts items ts) as [[]|]; [reflexivity|]. cbn [option_map].
  rewrite G. destruct (g NLet ts) as [q|]; [apply Fin|]. cbn [option_map].
  rewrite (f_then attrs_ (macro_call g) f_attrs f_macro_call). destruct ((attrs_ ;;; macro_call g) ts) as [q|]; [apply Fin|]. cbn [option_map].
  assert (Q : follows (attrs_ ;;; g NBlockLike ;;; unless (op "." <|> op "?"))) by grammar'. rewrite Q.
  destruct ((attrs_ ;;; g NBlockLike ;;; unless (op "." <|> op "?")) ts) as [q|]; cbn [option_map].
  - rewrite f_op. destruct (op ";" q); apply Fin.
  - rewrite G. destruct (g (NExpr true) ts) as [[|t q]|]; [apply (Fin [])| |reflexivity]. cbn [option_map].
    change (rename (t :: q)) with (rename1 t :: rename q). cbv iota beta. change (rename1 t :: rename q) with (rename (t :: q)).
    rewrite f_op. destruct (op ";" (t :: q)); [apply Fin|reflexivity].
Qed.
End Items.

Lemma m_stmts fuel : makes (rename_block r) (RustGrammar.stmts fuel).
Proof.
  induction fuel as [|fuel IH]; [intros ts; reflexivity|].
  intros ts. cbn [RustGrammar.stmts].
  set (blk := fun b => match RustGrammar.stmts fuel b with Some _ => true | None => false end).
  assert (B : forall b, blk (rename b) = blk b).
  { intros b. unfold blk. rewrite IH. destruct (RustGrammar.stmts fuel b); reflexivity. }
  refine (m_whole_sequence (rename_stmt r) _ _ _). apply y_stmt; [intros n; apply f_go, B|exact IH|].
  clear ts.
  assert (X : forall k, makes (map (rename_item r)) ((fix items (k : nat) (ts : list tt) : option (list item) :=
      match k with
      | 0 => None
      | S k' => sequence (module_item (go blk fuel) (RustGrammar.stmts fuel) (items k')) (List.length ts) ts
      end) k)).
  { intros k. induction k as [|k IHk]; [intros ts; reflexivity|].
    intros ts. refine (m_whole_sequence (rename_item r) _ _ _). apply y_module_item; [intros n; apply f_go, B|exact IH|exact IHk]. }
  apply X.
Qed.
End Rename.
