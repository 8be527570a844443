(** The laws that theorems assume of the external functions hold for the instance of
    RustInstance.v. *)
From Coq Require Import String Lia.
From Verif Require Import Base BaseFacts Token Types Values Item Deprecation Interpreter Parse AliasSubstitution
  SpecItem SpecRespelled SpecSubst SpecParse SpecDeprecation SpecForms Concrete ConcreteEq ConcreteParse RustLexer RustText RustGrammar RustInstance RustBlind PropertiesSubst.
Open Scope list_scope.

Local Opaque depth.

(** The grammar does not look into string literals. *)
Lemma blind_block b b' : L b b' -> block_ok b = block_ok b'.
Proof.
  intros H. unfold block_ok. pose proof (blind_stmts depth _ _ H) as K.
  destruct (stmts depth b), (stmts depth b'); cbn in K; try contradiction; reflexivity.
Qed.
Lemma blind_nt n : blind (nt_ n).
Proof. apply blind_go, blind_block. Qed.
Lemma blind_items k : blind0 (items_ k).
Proof.
  induction k as [|k IH]; [intros ts ts' _; exact I|].
  intros ts ts' H. refine (blind_whole_sequence any _ _ _ _ H).
  apply blind_module_item; [exact blind_nt|exact (blind_stmts depth)|exact IH].
Qed.

Local Opaque nt_ stmts_ items_.

Lemma whole_same f ts ts' : whole f ts = Some ts' -> ts' = ts.
Proof. unfold whole. destruct (all f ts); congruence. Qed.

Theorem rust_faithful : faithful rust rust_reparse.
Proof.
  split.
  - intros k ts ts' H. exact (whole_same _ _ _ H).
  - intros ts x H. cbn in H. destruct ts as [|[y| | |] [|]]; try discriminate. destruct (plain_ident y); congruence.
  - intros ts v p H. cbn in H. destruct ts as [|[y| |[]|] [|]]; try discriminate. congruence.
Qed.

Theorem rust_covers : covers rust_syntax.
Proof.
  intros ts. cbn. unfold rust_forest.
  assert (P : forest_tokens (plain_trees ts) = ts).
  { unfold forest_tokens, plain_trees. induction ts as [|t r IH]; [reflexivity|]. cbn in *. now rewrite IH. }
  destruct (stmts_ ts) as [l|]; [|exact P].
  destruct (tt_eqb _ _) eqn:E; [|exact P]. apply tt_eqb_eq in E. injection E as E. exact E.
Qed.

Theorem rust_within : within rust_parsers.
Proof.
  assert (N : forall ts o x k u, node ts o = Some (x, k, u) -> k <= List.length ts).
  { intros ts [r|] x k u H; cbn in H; [|discriminate]. injection H as _ <- _. lia. }
  repeat apply conj.
  - intros ts d r k H. cbn in H.
    destruct ts as [|[|c|[]|] ts]; try discriminate; [|injection H as _ _ <-; cbn; lia].
    destruct ts as [|[| |[]|] ts]; try discriminate. destruct (N.eqb c 45); [|discriminate].
    injection H as _ _ <-; cbn; lia.
  - intros ts d r k H. cbn in H. destruct ts as [|[| |[]|] ?]; try discriminate; injection H as _ _ <-; cbn; lia.
  - intros ts x k u. apply N.
  - intros ts x k u H. cbn [pre_type rust_parsers] in H. unfold rust_pre_type in H.
    destruct (node ts (nt_ (NType true) ts)) as [[[x' k'] u']|] eqn:E.
    + injection H as <- <- <-. exact (N _ _ _ _ _ E).
    + destruct ts as [|[| | |[] l] r]; try discriminate.
      destruct (nt_ (NType true) l) as [[|t r']|]; try discriminate.
      destruct (is_comma t); [discriminate|]. injection H as _ <- _. cbn. lia.
  - intros ts x k u. apply N.
  - intros ts b k u H. cbn [pre_block rust_parsers] in H. destruct ts as [|[| | |[] l] r]; try discriminate.
    destruct (stmts_ l); [|discriminate]. injection H as _ <- _. cbn. lia.
Qed.

Theorem rust_printing : printing rust_parsers.
Proof.
  assert (N : forall ts o x k u, node ts o = Some (x, k, u) -> firstn k ts = x).
  { intros ts [r|] x k u H; cbn in H; [|discriminate]. injection H as <- <- _. reflexivity. }
  repeat apply conj.
  - intros ts v p k H. cbn in H. destruct ts as [|[| |[]|] ?]; try discriminate; injection H as <- <- <-; reflexivity.
  - intros ts x k. apply N.
  - intros ts x k H. cbn [pre_type rust_parsers] in H. unfold rust_pre_type in H.
    destruct (node ts (nt_ (NType true) ts)) as [[[x' k'] u']|] eqn:E.
    + injection H as -> -> ->. exact (N _ _ _ _ _ E).
    + destruct ts as [|[| | |[] l] r]; try discriminate.
      destruct (nt_ (NType true) l) as [[|t r']|]; try discriminate.
      destruct (is_comma t); discriminate.
  - intros ts x k. apply N.
Qed.

Theorem rust_braced : braced rust_parsers.
Proof.
  split.
  - intros ts b k u H. cbn [pre_block rust_parsers] in H. destruct ts as [|[| | |[] l] r]; try discriminate.
    destruct (stmts_ l); [|discriminate]. injection H as _ <- _. eauto.
  - intros l r. reflexivity.
Qed.

Lemma blind_rest_of {A} (f : list tt -> option (A * list tt)) : blind2 any f -> blind (rest_of f).
Proof.
  intros F ts ts' H. unfold rest_of. pose proof (F _ _ H) as K.
  destruct (f ts) as [[]|], (f ts') as [[]|]; cbn in K |- *; try contradiction; [exact (proj2 K)|exact I].
Qed.
Lemma blind_whole f : blind f -> ignores_strings (whole f).
Proof.
  intros F ts ts' H. unfold whole. rewrite (blind_all _ F _ _ H). destruct (all f ts'); congruence.
Qed.
Theorem rust_ignores_strings : forall k, ignores_strings (rust_reparse k).
Proof.
  intros k. apply blind_whole.
  destruct k; try apply blind_nt; try apply blind_vis; try apply blind_opt, blind_nt; apply blind_rest_of.
  - apply blind_module_item; [exact blind_nt|exact (blind_stmts depth)|apply blind_items].
  - apply blind_foreign_item, blind_nt.
  - apply blind_trait_item; [exact blind_nt|exact (blind_stmts depth)].
  - apply blind_trait_item; [exact blind_nt|exact (blind_stmts depth)].
  - apply blind_trait_item; [exact blind_nt|exact (blind_stmts depth)].
  - apply blind_trait_item; [exact blind_nt|exact (blind_stmts depth)].
  - apply blind_impl_item; [exact blind_nt|exact (blind_stmts depth)].
  - apply blind_impl_item; [exact blind_nt|exact (blind_stmts depth)].
  - apply blind_impl_item; [exact blind_nt|exact (blind_stmts depth)].
  - apply blind_impl_item; [exact blind_nt|exact (blind_stmts depth)].
Qed.

(** C24 for every kind of node of this grammar: code that parses either is substituted or the
    alias whose replacement broke it is named; there is no panic. *)
Corollary rust_substitution_ends : forall lookup k ts, rust_reparse k ts <> None ->
  (exists ts', SubstituteIdents.substitute_idents rust lookup (rust_reparse k) ts = Ok ts' /\ ts' = SpecSubst.substituted rust lookup ts) \/
  (exists x, SubstituteIdents.substitute_idents rust lookup (rust_reparse k) ts = Err (SubstitutionError x)).
Proof.
  intros lookup k ts H.
  assert (Lit : forall l r, parse_lit_str rust [TLit l] = Some r -> exists v p, l = LStr v p).
  { intros l [v p] E. apply (faithful_str _ _ rust_faithful) in E. injection E as ->. eauto. }
  destruct (C24_outcomes rust lookup _ (rust_reparse k) Lit (rust_ignores_strings k) ts H)
    as [(n & -> & P & _)|(before & x & s & after & _ & _ & _ & ->)]; [left|right; eauto].
  exists n. split; [reflexivity|]. exact (faithful_node _ _ rust_faithful _ _ _ P).
Qed.

(** The instance meets what C25 asks of the parsers. *)
Corollary rust_indifferent : indifferent rust rust_reparse.
Proof.
  split; [exact rust_ignores_strings| | |].
  - intros ts ts' H E. destruct H as [|t t' r r' Ht Hr]; [reflexivity|]. destruct Ht; try reflexivity. destruct Hr; [|reflexivity]. exact E.
  - intros ts ts' H E. destruct H as [|t t' r r' Ht Hr]; [reflexivity|]. destruct Ht as [| |l| |]; try reflexivity; [destruct l; destruct Hr; try reflexivity; exact E|destruct Hr; [discriminate E|reflexivity]].
  - intros l [v p] E. apply (faithful_str _ _ rust_faithful) in E. injection E as ->. eauto.
Qed.
