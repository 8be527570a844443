(** C104: headers with other identifiers.  [rename_parsed], [reads_alike] and [same_functions] are in
    SpecHeaders, [names_fit], [mentioned_in] and [strings_kept] in SpecHeaderNames, [rename] in SpecRename,
    [built_on] in SpecBuilding, [flattened] and [inert] in SpecNested. *)
From Coq Require Import String.
From Verif Require Import Base Token Types Values Ast Env Item Deprecation Interpreter Parse Macro ConcreteParse RustLexer RustGrammar RustInstance RustLaws RustRename
  SpecMacro SpecPrograms SpecParse SpecFormat SpecElab SpecSubst SpecItem SpecDeprecation SpecRepro SpecForms SpecUnroll SpecNaming SpecNested SpecBuilding SpecRename SpecHeaders SpecHeaderNames
  HeaderProofs HeaderUseProofs RustHeaders.
Open Scope list_scope.

(** The whole of a use, header and block, is read alike if other identifiers are written in it,
    even if some of them become the same. *)
Theorem C104_function_like : forall r P has_func n ts, reads_alike r P -> same_functions r has_func ->
  (forall ts, pre_block P (rename r ts) = option_map (fun '(b, k, u) => (rename_block r b, k, u)) (pre_block P ts)) ->
  parse_func_macro P has_func n (rename r ts) = rename_parsed r (parse_func_macro P has_func n ts).
Proof. exact (fun r P hf n ts A F B => func_rename r P hf A F B n ts). Qed.
Print Assumptions C104_function_like.
Theorem C104_attribute : forall r P has_func n attr item, reads_alike r P -> same_functions r has_func ->
  (forall ts, pre_block P (rename r ts) = option_map (fun '(b, k, u) => (rename_block r b, k, u)) (pre_block P ts)) ->
  parse_attr_macro P has_func n (rename r attr) (rename r item) = rename_parsed r (parse_attr_macro P has_func n attr item).
Proof. exact (fun r P hf n attr item A F B => attr_rename r P hf A F B n attr item). Qed.
Print Assumptions C104_attribute.

(** An attribute below another that builds on its values, if these are identifiers: whatever uses
    are made of the code of the upper one, they yield what one attribute with the loops and
    definitions of both yields.  Nothing is assumed of how they are read. *)
Theorem C104_stacked : forall O P Y uses i u outer c1 uses' k w flat c3 v inner j T item,
  faithful O (reparse Y) -> covers Y -> reads_back O ->
  nth_error uses i = Some u -> p_ast (inv_parsed (invocation_for O P u)) = Ok (Some outer) -> raised (invocation_for O P u) = [] -> nth_error (expand_uses O P Y uses) i = Some (Code c1) ->
  nth_error uses' k = Some w -> p_ast (inv_parsed (invocation_for O P w)) = Ok (Some flat) -> raised (invocation_for O P w) = [] -> nth_error (expand_uses O P Y uses') k = Some (Code c3) ->
  u_source v = ComposeItem T item -> p_ast (inv_parsed (invocation_for O P v)) = Ok (Some inner) -> raised (invocation_for O P v) = [] -> code inner = code flat ->
  u_seed u = u_seed w \/ hash_free flat ->
  (forall x, In x item_keywords -> ~ In x (ast_aliases flat)) ->
  code outer = attribute j T ++ item -> ~ In (txt "compose_item") (ast_aliases outer) ->
  proper (erase_ast outer) -> proper (erase_ast inner) -> flattened (erase_ast outer) (erase_ast inner) (erase_ast flat) ->
  exists bss, round_bindings O (new_initialized O (u_seed w) 0) (erase_ast outer) = Ok bss /\
    c1 = flat_map (fun bs => attribute j (substituted O (fun x => assoc_str x bs) T) ++ substituted O (fun x => assoc_str x bs) item) bss /\
    (built_on (erase_ast outer) (erase_ast inner) -> plain_strings O (code flat) ->
     (forall bs, In bs bss -> names_fit O P bs /\ mentioned_in O bs (erase_ast inner) /\ strings_kept O bs T /\ strings_kept O bs item /\ strings_kept O bs (code flat)) ->
     (forall bs b, In bs bss -> In b bs -> inert O (ast_aliases (erase_ast inner)) (snd b)) ->
     (forall bs e, In bs bss -> In e (ast_exprs (erase_ast inner)) -> raw_kept O (fun x => assoc_str x bs) e) ->
     forall us c, Forall2 (fun bs u => u_source u = ComposeItem (substituted O (fun x => assoc_str x bs) T) (substituted O (fun x => assoc_str x bs) item) /\ (u_seed u = u_seed w \/ hash_free flat)) bss us ->
     outputs_in_sequence (expand_uses O P Y us) = Code c -> c = c3).
Proof. exact stacked_names. Qed.
Print Assumptions C104_stacked.

(** So does a use in the block of another. *)
Theorem C104_nested : forall O P Y uses i u outer c1 uses' k w flat c3 v inner j T,
  faithful O (reparse Y) -> covers Y -> reads_back O ->
  nth_error uses i = Some u -> p_ast (inv_parsed (invocation_for O P u)) = Ok (Some outer) -> raised (invocation_for O P u) = [] -> nth_error (expand_uses O P Y uses) i = Some (Code c1) ->
  nth_error uses' k = Some w -> p_ast (inv_parsed (invocation_for O P w)) = Ok (Some flat) -> raised (invocation_for O P w) = [] -> nth_error (expand_uses O P Y uses') k = Some (Code c3) ->
  u_source v = Compose T -> p_ast (inv_parsed (invocation_for O P v)) = Ok (Some inner) -> raised (invocation_for O P v) = [] -> code inner = code flat ->
  u_seed u = u_seed w \/ hash_free flat ->
  (forall x, In x item_keywords -> ~ In x (ast_aliases flat)) ->
  code outer = inner_use j T -> ~ In (txt "compose") (ast_aliases outer) ->
  proper (erase_ast outer) -> proper (erase_ast inner) -> flattened (erase_ast outer) (erase_ast inner) (erase_ast flat) ->
  exists bss, round_bindings O (new_initialized O (u_seed w) 0) (erase_ast outer) = Ok bss /\
    c1 = flat_map (fun bs => inner_use j (substituted O (fun x => assoc_str x bs) T)) bss /\
    (built_on (erase_ast outer) (erase_ast inner) -> plain_strings O (code flat) ->
     (forall bs, In bs bss -> names_fit O P bs /\ mentioned_in O bs (erase_ast inner) /\ strings_kept O bs T /\ strings_kept O bs (code flat)) ->
     (forall bs b, In bs bss -> In b bs -> inert O (ast_aliases (erase_ast inner)) (snd b)) ->
     (forall bs e, In bs bss -> In e (ast_exprs (erase_ast inner)) -> raw_kept O (fun x => assoc_str x bs) e) ->
     forall us c, Forall2 (fun bs u => u_source u = Compose (substituted O (fun x => assoc_str x bs) T) /\ (u_seed u = u_seed w \/ hash_free flat)) bss us ->
     outputs_in_sequence (expand_uses O P Y us) = Code c -> c = c3).
Proof. exact nested_names. Qed.
Print Assumptions C104_nested.

(** The Rust instance reads alike: whatever the identifiers, as long as no word of the grammar is
    an alias or the value of one, and no function either. *)
Theorem C104_rust : forall bs, all_names bs -> Forall (free_of bs) grammar_words -> (forall x, known rust x = true -> free_of bs x) ->
  names_fit rust rust_parsers bs.
Proof. exact rust_fit. Qed.
Print Assumptions C104_rust.
Theorem C104_rust_reads : forall r, Forall (spared r) grammar_words -> (forall l, on_literals r l = l) ->
  reads_alike r rust_parsers /\
  forall ts, pre_block rust_parsers (rename r ts) = option_map (fun '(b, k, u) => (rename_block r b, k, u)) (pre_block rust_parsers ts).
Proof. exact (fun r W L => conj (rust_alike r W L) (rust_block_rename r W L)). Qed.
Print Assumptions C104_rust_reads.

(** All hypotheses together, for
    [#[compose_item(for t in [p, q] k = upper(t))] #[compose_item(for x in [t, b] n = concat(x, k, c))] fn n() { k("-%x%") }]. *)
Example C104_example :
  let T := lex "for x in [t, b] n = concat(x, k, c)" in
  let item := lex "fn n() { k(""-%x%"") }" in
  let u := use_of (ComposeItem (lex "for t in [p, q] k = upper(t)") (attribute false T ++ item)) in
  let v := use_of (ComposeItem T item) in
  let w := use_of (ComposeItem (lex "for t in [p, q] for x in [t, b] k = upper(t), n = concat(x, k, c)") item) in
  exists outer inner flat bss us,
    faithful rust (reparse rust_syntax) /\ covers rust_syntax /\ reads_back rust /\
    p_ast (inv_parsed (invocation_for rust rust_parsers u)) = Ok (Some outer) /\ raised (invocation_for rust rust_parsers u) = [] /\
    p_ast (inv_parsed (invocation_for rust rust_parsers w)) = Ok (Some flat) /\ raised (invocation_for rust rust_parsers w) = [] /\
    p_ast (inv_parsed (invocation_for rust rust_parsers v)) = Ok (Some inner) /\ raised (invocation_for rust rust_parsers v) = [] /\ code inner = code flat /\
    hash_free flat /\ (forall x, In x item_keywords -> ~ In x (ast_aliases flat)) /\
    code outer = attribute false T ++ item /\ ~ In (txt "compose_item") (ast_aliases outer) /\
    proper (erase_ast outer) /\ proper (erase_ast inner) /\ flattened (erase_ast outer) (erase_ast inner) (erase_ast flat) /\
    built_on (erase_ast outer) (erase_ast inner) /\ plain_strings rust (code flat) /\
    round_bindings rust (new_initialized rust 7 0) (erase_ast outer) = Ok bss /\
    (forall bs, In bs bss -> names_fit rust rust_parsers bs /\ mentioned_in rust bs (erase_ast inner) /\ strings_kept rust bs T /\ strings_kept rust bs item /\ strings_kept rust bs (code flat)) /\
    (forall bs b, In bs bss -> In b bs -> inert rust (ast_aliases (erase_ast inner)) (snd b)) /\
    (forall bs e, In bs bss -> In e (ast_exprs (erase_ast inner)) -> raw_kept rust (fun x => assoc_str x bs) e) /\
    Forall2 (fun bs u => u_source u = ComposeItem (substituted rust (fun x => assoc_str x bs) T) (substituted rust (fun x => assoc_str x bs) item) /\ (u_seed u = 7%N \/ hash_free flat)) bss us /\
    expand_uses rust rust_parsers rust_syntax [u] =
      [Code (lex "#[compose_item(for x in [p, b] n = concat(x, P, c))] fn n() { P(""-%x%"") } #[compose_item(for x in [q, b] n = concat(x, Q, c))] fn n() { Q(""-%x%"") }")] /\
    expand_uses rust rust_parsers rust_syntax us =
      [Code (lex "fn pPc() { P(""-p"") } fn bPc() { P(""-b"") }"); Code (lex "fn qQc() { Q(""-q"") } fn bQc() { Q(""-b"") }")] /\
    expand_uses rust rust_parsers rust_syntax [w] =
      [Code (lex "fn pPc() { P(""-p"") } fn bPc() { P(""-b"") } fn qQc() { Q(""-q"") } fn bQc() { Q(""-b"") }")].
Proof.
  intros T item u v w.
  destruct (p_ast (inv_parsed (invocation_for rust rust_parsers u))) as [[outer|]|e|m] eqn:E1; try (vm_compute in E1; discriminate E1).
  destruct (p_ast (inv_parsed (invocation_for rust rust_parsers w))) as [[flat|]|e|m] eqn:E3; try (vm_compute in E3; discriminate E3).
  destruct (p_ast (inv_parsed (invocation_for rust rust_parsers v))) as [[inner|]|e|m] eqn:E2; try (vm_compute in E2; discriminate E2).
  destruct (round_bindings rust (new_initialized rust 7 0) (erase_ast outer)) as [bss|e|m] eqn:Eb; try (vm_compute in E1; injection E1 as <-; vm_compute in Eb; discriminate Eb).
  exists outer, inner, flat, bss, (map (fun bs => use_of (ComposeItem (substituted rust (fun x => assoc_str x bs) T) (substituted rust (fun x => assoc_str x bs) item))) bss).
  vm_compute in E1, E2, E3. injection E1 as <-. injection E2 as <-. injection E3 as <-. vm_compute in Eb. injection Eb as <-.
  split; [exact rust_faithful|]. split; [exact rust_covers|]. split; [intros v0; reflexivity|]. split; [reflexivity|]. split; [vm_compute; reflexivity|]. split; [reflexivity|]. split; [vm_compute; reflexivity|].
  split; [reflexivity|]. split; [vm_compute; reflexivity|]. split; [vm_compute; reflexivity|].
  split; [unfold hash_free; repeat constructor|]. split; [intros x Hx Hin; vm_compute in Hx, Hin; intuition congruence|].
  split; [vm_compute; reflexivity|]. split; [intros Hin; vm_compute in Hin; intuition congruence|]. split; [discriminate|]. split; [discriminate|]. split; [split; vm_compute; reflexivity|].
  split. { split; intros l x it Hl Hx Hi; vm_compute in Hl, Hi; intuition subst; vm_compute in Hx; intuition subst; vm_compute in *; intuition discriminate. }
  split. { intros l v0 p Hl Hp. vm_compute in Hl. repeat (destruct Hl as [Hl|Hl]; [try discriminate Hl|]); [injection Hl as <-|destruct Hl]. injection Hp as <- <-.
    exists [PText (txt "-"); PHole (txt "x") 0], None. split; [reflexivity|]. split; [|repeat constructor]. 
    split; [|split; [|exact I]]; [repeat (constructor; [split; [discriminate|vm_compute; intuition discriminate]|]); constructor|repeat split; auto]. }
  split; [reflexivity|]. split.
  { intros bs Hbs. split; [|split; [|split; [|split]]].
    - apply rust_fit.
      + intros b Hb. vm_compute in Hbs. intuition subst; vm_compute in Hb; intuition subst; eexists; reflexivity.
      + apply Forall_forall. intros x Hx b Hb. vm_compute in Hx, Hbs. destruct Hbs as [Hbs|[Hbs|[]]]; subst bs; vm_compute in Hb; destruct Hb as [Hb|[Hb|[]]]; subst b; cbn [fst snd]; split; intros Q; try (injection Q as Q); subst x; intuition discriminate.
      + intros x Hx b Hb. vm_compute in Hbs. destruct Hbs as [Hbs|[Hbs|[]]]; subst bs; vm_compute in Hb; destruct Hb as [Hb|[Hb|[]]]; subst b; cbn [fst snd]; split; intros Q; try (injection Q as Q); subst x; vm_compute in Hx; discriminate Hx.
    - vm_compute in Hbs. destruct Hbs as [Hbs|[Hbs|[]]]; subst bs; (split; [|split]);
        [intros l Hl; vm_compute in Hl; intuition subst; reflexivity|intros it Hi; vm_compute in Hi; intuition subst; reflexivity|intros e He; vm_compute in He; intuition subst; cbn [only_values map fold_right]; repeat split; try exact I; intros id ts Q; injection Q as <- <-; intros l Hl; vm_compute in Hl; intuition discriminate
        |intros l Hl; vm_compute in Hl; intuition subst; reflexivity|intros it Hi; vm_compute in Hi; intuition subst; reflexivity|intros e He; vm_compute in He; intuition subst; cbn [only_values map fold_right]; repeat split; try exact I; intros id ts Q; injection Q as <- <-; intros l Hl; vm_compute in Hl; intuition discriminate].
    - intros l Hl. vm_compute in Hl. intuition discriminate.
    - intros l Hl. vm_compute in Hl. repeat (destruct Hl as [Hl|Hl]; [try discriminate Hl|]); [injection Hl as <-|destruct Hl]. right. vm_compute in Hbs. destruct Hbs as [Hbs|[Hbs|[]]]; subst bs; vm_compute; reflexivity.
    - intros l Hl. vm_compute in Hl. repeat (destruct Hl as [Hl|Hl]; [try discriminate Hl|]); [injection Hl as <-|destruct Hl]. right. vm_compute in Hbs. destruct Hbs as [Hbs|[Hbs|[]]]; subst bs; vm_compute; reflexivity. }
  split.
  { intros bs b Hbs Hb. vm_compute in Hbs. intuition subst; vm_compute in Hb; intuition subst; split; try (intros x Hx Hn; vm_compute in Hx, Hn; intuition congruence); split; try (intros l Hl; vm_compute in Hl; intuition discriminate); intros Hn; vm_compute in Hn; intuition discriminate. }
  split; [intros bs e Hbs He; vm_compute in Hbs; intuition subst; vm_compute in He; intuition subst; cbn; repeat split; intros [Ht|Ht]; vm_compute in Ht; discriminate Ht|].
  split; [|vm_compute; repeat split; reflexivity].
  constructor; [|constructor; [|constructor]]; (split; [reflexivity|left; reflexivity]).
Qed.

(** Two identifiers that become one are read as well: [a = x, b = concat(y, x)] with [y] for [x]. *)
Example C104_reads_example :
  let r := {| on_idents := fun x => if str_eqb x (txt "x") then txt "y" else x; on_literals := fun l => l |} in
  let n := 1000%N in
  rename r (lex "for k in [x, (y, x)] a = x, b = concat(y, x)") = lex "for k in [y, (y, y)] a = y, b = concat(y, y)" /\
  reads_alike r rust_parsers /\ same_functions r (known rust) /\
  parse_attr_macro rust_parsers (known rust) n (lex "for k in [y, (y, y)] a = y, b = concat(y, y)") (lex "fn a() { y(b, 1) }") =
    rename_parsed r (parse_attr_macro rust_parsers (known rust) n (lex "for k in [x, (y, x)] a = x, b = concat(y, x)") (lex "fn a() { x(b, 1) }")) /\
  exists ast, p_ast (parse_attr_macro rust_parsers (known rust) n (lex "for k in [x, (y, x)] a = x, b = concat(y, x)") (lex "fn a() { x(b, 1) }")) = Ok (Some ast).
Proof.
  intros r n. split; [vm_compute; reflexivity|]. split; [|split; [|split; [vm_compute; reflexivity|eexists; vm_compute; reflexivity]]].
  - apply rust_alike; [|reflexivity]. apply Forall_forall. intros w Hw x. cbn [r on_idents]. destruct (str_eqb x (txt "x")) eqn:E.
    + apply BaseFacts.str_eqb_eq in E as ->. split; intros Q; subst w; vm_compute in Hw; intuition discriminate.
    + split; intros Q; exact Q.
  - intros x. cbn [r on_idents]. destruct (str_eqb x (txt "x")) eqn:E; [|reflexivity]. apply BaseFacts.str_eqb_eq in E as ->. vm_compute. reflexivity.
Qed.

(** Not if the inner use mentions the name in an expression that is more than a name: it is
    replaced there, while with both in one use the expression is taken as it is. *)
Theorem C104_expressions_refuted : exists D D' item,
  let use d := expand_uses rust rust_parsers rust_syntax [use_of (ComposeItem d item)] in
  expand_uses rust rust_parsers rust_syntax [use_of (ComposeItem D (attribute false D' ++ item))] = [Code (lex "#[compose_item(b = foo + 1)] fn f() { b }")] /\
  use (lex "b = foo + 1") = [Code (lex "fn f() { foo + 1 }")] /\
  use (D ++ [TPunct 44%N false] ++ D') = [Code (lex "fn f() { a + 1 }")].
Proof. exists (lex "a = foo"), (lex "b = a + 1"), (lex "fn f() { b }"). vm_compute. repeat split; reflexivity. Qed.
Print Assumptions C104_expressions_refuted.

(** Nor if an alias of the outer use is the name of a function: the inner use then calls another
    one. *)
Theorem C104_functions_refuted : exists D D' item,
  let use d := expand_uses rust rust_parsers rust_syntax [use_of (ComposeItem d item)] in
  expand_uses rust rust_parsers rust_syntax [use_of (ComposeItem D (attribute false D' ++ item))] = [Code (lex "#[compose_item(b = lower(Foo))] fn b() {}")] /\
  use (lex "b = lower(Foo)") = [Code (lex "fn foo() {}")] /\
  use (D ++ [TPunct 44%N false] ++ D') = [Code (lex "fn FOO() {}")].
Proof. exists (lex "upper = lower"), (lex "b = upper(Foo)"), (lex "fn b() {}"). vm_compute. repeat split; reflexivity. Qed.
Print Assumptions C104_functions_refuted.
