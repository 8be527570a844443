(** C102: one attribute below another.  [attribute], [flattened], [staged], [inert],
    [plain_strings] and [stacked_in] are in SpecNested. *)
From Coq Require Import String.
From Verif Require Import Base Token Types Values Ast Env Item Deprecation Interpreter Parse Macro ConcreteParse RustLexer RustGrammar RustInstance RustLaws
  SpecMacro SpecPrograms SpecParse SpecFormat SpecElab SpecSubst SpecItem SpecDeprecation SpecRepro SpecForms SpecUnroll SpecNested NestedProofs.
Open Scope list_scope.

(** The upper attribute yields the item with the lower one once per round, with the values of
    the round in both.  What these yield, one after the other, is what one attribute with the loops
    and definitions of both yields. *)
Theorem C102_stacked : forall O P Y uses i u outer c1 uses' k w flat c3 header j T item,
  faithful O (reparse Y) -> covers Y -> reads_back O ->
  nth_error uses i = Some u -> p_ast (inv_parsed (invocation_for O P u)) = Ok (Some outer) ->
  raised (invocation_for O P u) = [] -> nth_error (expand_uses O P Y uses) i = Some (Code c1) ->
  nth_error uses' k = Some w -> p_ast (inv_parsed (invocation_for O P w)) = Ok (Some flat) ->
  raised (invocation_for O P w) = [] -> nth_error (expand_uses O P Y uses') k = Some (Code c3) ->
  u_seed u = u_seed w \/ hash_free flat ->
  (forall x, In x item_keywords -> ~ In x (ast_aliases flat)) ->
  code outer = attribute j T ++ item -> ~ In (txt "compose_item") (ast_aliases outer) ->
  proper (erase_ast outer) -> proper header -> flattened (erase_ast outer) header (erase_ast flat) ->
  exists bss, round_bindings O (new_initialized O (u_seed w) 0) (erase_ast outer) = Ok bss /\
    c1 = flat_map (fun bs => attribute j (substituted O (fun x => assoc_str x bs) T) ++ substituted O (fun x => assoc_str x bs) item) bss /\
    (staged (erase_ast outer) header -> plain_strings O (code flat) ->
     (forall bs b, In bs bss -> In b bs -> inert O (ast_aliases header) (snd b)) ->
     forall us c, Forall2 (stacked_in O P T item flat header (u_seed w)) bss us ->
     outputs_in_sequence (expand_uses O P Y us) = Code c -> c = c3).
Proof. exact stacked_uses. Qed.
Print Assumptions C102_stacked.

(** All hypotheses together, for
    [#[compose_item(for t in [p, q] k = upper(t))] #[compose_item(for x in [a, b] n = concat(x, c))] fn n() { k("%t%-%x%") }]. *)
Example C102_example :
  let T := lex "for x in [a, b] n = concat(x, c)" in
  let item := lex "fn n() { k(""%t%-%x%"") }" in
  let u := use_of (ComposeItem (lex "for t in [p, q] k = upper(t)") (attribute false T ++ item)) in
  let w := use_of (ComposeItem (lex "for t in [p, q] for x in [a, b] k = upper(t), n = concat(x, c)") item) in
  exists outer header flat bss us,
    faithful rust (reparse rust_syntax) /\ covers rust_syntax /\ reads_back rust /\
    p_ast (inv_parsed (invocation_for rust rust_parsers u)) = Ok (Some outer) /\ raised (invocation_for rust rust_parsers u) = [] /\
    p_ast (inv_parsed (invocation_for rust rust_parsers w)) = Ok (Some flat) /\ raised (invocation_for rust rust_parsers w) = [] /\
    hash_free flat /\ (forall x, In x item_keywords -> ~ In x (ast_aliases flat)) /\
    code outer = attribute false T ++ item /\ ~ In (txt "compose_item") (ast_aliases outer) /\
    proper (erase_ast outer) /\ proper header /\ flattened (erase_ast outer) header (erase_ast flat) /\
    staged (erase_ast outer) header /\ plain_strings rust (code flat) /\
    round_bindings rust (new_initialized rust 7 0) (erase_ast outer) = Ok bss /\
    (forall bs b, In bs bss -> In b bs -> inert rust (ast_aliases header) (snd b)) /\
    Forall2 (stacked_in rust rust_parsers T item flat header 7%N) bss us /\
    expand_uses rust rust_parsers rust_syntax [u] =
      [Code (attribute false T ++ lex "fn n() { P(""p-%x%"") }" ++ attribute false T ++ lex "fn n() { Q(""q-%x%"") }")] /\
    expand_uses rust rust_parsers rust_syntax us =
      [Code (lex "fn ac() { P(""p-a"") } fn bc() { P(""p-b"") }"); Code (lex "fn ac() { Q(""q-a"") } fn bc() { Q(""q-b"") }")] /\
    expand_uses rust rust_parsers rust_syntax [w] =
      [Code (lex "fn ac() { P(""p-a"") } fn bc() { P(""p-b"") } fn ac() { Q(""q-a"") } fn bc() { Q(""q-b"") }")].
Proof.
  intros T item u w.
  destruct (p_ast (inv_parsed (invocation_for rust rust_parsers u))) as [[outer|]|e|m] eqn:E1; try (vm_compute in E1; discriminate E1).
  destruct (p_ast (inv_parsed (invocation_for rust rust_parsers w))) as [[flat|]|e|m] eqn:E3; try (vm_compute in E3; discriminate E3).
  destruct (p_ast (inv_parsed (invocation_for rust rust_parsers (use_of (ComposeItem T item))))) as [[header|]|e|m] eqn:E2; try (vm_compute in E2; discriminate E2).
  destruct (round_bindings rust (new_initialized rust 7 0) (erase_ast outer)) as [bss|e|m] eqn:Eb; try (vm_compute in E1; injection E1 as <-; vm_compute in Eb; discriminate Eb).
  exists outer, (erase_ast header), flat, bss, (map (fun bs => use_of (ComposeItem (substituted rust (fun x => assoc_str x bs) T) (substituted rust (fun x => assoc_str x bs) item))) bss).
  vm_compute in E1, E2, E3. injection E1 as <-. injection E2 as <-. injection E3 as <-. vm_compute in Eb. injection Eb as <-.
  split; [exact rust_faithful|]. split; [exact rust_covers|]. split; [intros v; reflexivity|]. split; [reflexivity|]. split; [vm_compute; reflexivity|]. split; [reflexivity|]. split; [vm_compute; reflexivity|].
  split; [unfold hash_free; repeat constructor|]. split; [intros x Hx Hin; vm_compute in Hx, Hin; intuition congruence|].
  split; [vm_compute; reflexivity|]. split; [intros Hin; vm_compute in Hin; intuition congruence|]. split; [discriminate|]. split; [discriminate|]. split; [split; vm_compute; reflexivity|].
  split; [split; [intros x e Hx He|intros l x it Hl Hx Hi]; [vm_compute in Hx, He|vm_compute in Hl, Hi; intuition subst; vm_compute in Hx]; intuition subst; vm_compute in *; intuition discriminate|].
  split. { intros l v p Hl Hp. vm_compute in Hl. repeat (destruct Hl as [Hl|Hl]; [try discriminate Hl|]); [injection Hl as <-|destruct Hl]. injection Hp as <- <-.
    exists [PHole (txt "t") 0; PText (txt "-"); PHole (txt "x") 0], None. split; [reflexivity|]. split; [|repeat constructor]. 
    split; [|split; [|exact I]]; [repeat (constructor; [split; [discriminate|vm_compute; intuition discriminate]|]); constructor|repeat split; auto]. }
  split; [reflexivity|]. split.
  { intros bs b Hbs Hb. vm_compute in Hbs. intuition subst; vm_compute in Hb; intuition subst; split; try (intros x Hx Hn; vm_compute in Hx, Hn; intuition congruence); split; try (intros l Hl; vm_compute in Hl; intuition discriminate); intros Hn; vm_compute in Hn; intuition discriminate. }
  split; [|vm_compute; repeat split; reflexivity].
  constructor; [|constructor; [|constructor]]; (split; [reflexivity|split; [vm_compute; reflexivity|split; [left; reflexivity|eexists; split; [vm_compute; reflexivity|vm_compute; repeat split; reflexivity]]]]).
Qed.

(** The values of the upper attribute are put into the lower one, so it can build on them; its
    name is replaced too if it is an alias. *)
Example C102_values :
  let upper (D I : string) := expand_uses rust rust_parsers rust_syntax [use_of (ComposeItem (lex D) (lex I))] in
  upper "a = foo"%string "#[compose_item(b = concat(a, _x))] fn b() { a }"%string = [Code (lex "#[compose_item(b = concat(foo, _x))] fn b() { foo }")] /\
  upper "b = concat(foo, _x)"%string "fn b() { foo }"%string = [Code (lex "fn foo_x() { foo }")] /\
  upper "a = foo, b = concat(a, _x)"%string "fn b() { a }"%string = [Code (lex "fn foo_x() { foo }")] /\
  upper "compose_item = other"%string "#[compose_item(b = c)] fn b() {}"%string = [Code (lex "#[other(b = c)] fn b() {}")].
Proof. vm_compute. repeat split; reflexivity. Qed.

(** Not if a value of the upper attribute is an alias of the lower one: the lower one replaces it
    again.  With both in one attribute it stays. *)
Theorem C102_order_refuted : exists D D' item,
  let use d ts := use_of (ComposeItem d ts) in
  expand_uses rust rust_parsers rust_syntax [use D (attribute false D' ++ item)] = [Code (attribute false D' ++ lex "fn b() {}")] /\
  expand_uses rust rust_parsers rust_syntax [use D' (lex "fn b() {}")] = [Code (lex "fn c() {}")] /\
  expand_uses rust rust_parsers rust_syntax [use (D ++ [TPunct 44%N false] ++ D') item] = [Code (lex "fn b() {}")].
Proof. exists (lex "a = b"), (lex "b = c"), (lex "fn a() {}"). vm_compute. repeat split; reflexivity. Qed.
Print Assumptions C102_order_refuted.
