(** C103: building on the values of the use around.  [put_in], [raw_kept], [built_on],
    [nested_on] and [stacked_on] are in SpecBuilding, [flattened], [inert] and [plain_strings] in SpecNested. *)
From Coq Require Import String.
From Verif Require Import Base Token Types Values Ast Env Item Deprecation Interpreter Parse Macro ConcreteParse RustLexer RustGrammar RustInstance RustLaws
  SpecMacro SpecPrograms SpecParse SpecFormat SpecElab SpecSubst SpecItem SpecDeprecation SpecRepro SpecForms SpecUnroll SpecNaming SpecNested SpecBuilding BuildingProofs.
Open Scope list_scope.

(** Definitions: those that come last can be evaluated alone if the values of the others are put
    in the place of their names. *)
Theorem C103_definitions : forall O seed first i1 i2 b1 bs, let env := new_initialized O seed first in
  bindings O env i1 = Ok b1 -> bindings O env (i1 ++ i2) = Ok bs ->
  Forall (raw_kept O (fun x => assoc_str x b1)) (map snd i2) -> (forall b n, In b b1 -> In n (map fst i2) -> snd b <> VIdent n) ->
  exists b2, bindings O env (map_items (put_in O (fun x => assoc_str x b1)) i2) = Ok b2 /\ bs = b1 ++ b2.
Proof. exact bindings_put. Qed.
Print Assumptions C103_definitions.

(** A use in the block of another that builds on its values yields, round by round, what one use
    with the loops and definitions of both yields. *)
Theorem C103_nested : forall O P Y uses i u outer c1 uses' k w flat c3 header j T,
  faithful O (reparse Y) -> covers Y -> reads_back O ->
  nth_error uses i = Some u -> p_ast (inv_parsed (invocation_for O P u)) = Ok (Some outer) -> raised (invocation_for O P u) = [] -> nth_error (expand_uses O P Y uses) i = Some (Code c1) ->
  nth_error uses' k = Some w -> p_ast (inv_parsed (invocation_for O P w)) = Ok (Some flat) -> raised (invocation_for O P w) = [] -> nth_error (expand_uses O P Y uses') k = Some (Code c3) ->
  u_seed u = u_seed w \/ hash_free flat ->
  (forall x, In x item_keywords -> ~ In x (ast_aliases flat)) ->
  code outer = inner_use j T -> ~ In (txt "compose") (ast_aliases outer) ->
  proper (erase_ast outer) -> proper header -> flattened (erase_ast outer) header (erase_ast flat) ->
  exists bss, round_bindings O (new_initialized O (u_seed w) 0) (erase_ast outer) = Ok bss /\
    c1 = flat_map (fun bs => inner_use j (substituted O (fun x => assoc_str x bs) T)) bss /\
    (built_on (erase_ast outer) header -> plain_strings O (code flat) ->
     (forall bs b, In bs bss -> In b bs -> inert O (ast_aliases header) (snd b)) ->
     (forall bs e, In bs bss -> In e (ast_exprs header) -> raw_kept O (fun x => assoc_str x bs) e) ->
     forall us c, Forall2 (nested_on O P T flat header (u_seed w)) bss us -> outputs_in_sequence (expand_uses O P Y us) = Code c -> c = c3).
Proof. exact nested_built. Qed.
Print Assumptions C103_nested.

(** So does an attribute below another. *)
Theorem C103_stacked : forall O P Y uses i u outer c1 uses' k w flat c3 header j T item,
  faithful O (reparse Y) -> covers Y -> reads_back O ->
  nth_error uses i = Some u -> p_ast (inv_parsed (invocation_for O P u)) = Ok (Some outer) -> raised (invocation_for O P u) = [] -> nth_error (expand_uses O P Y uses) i = Some (Code c1) ->
  nth_error uses' k = Some w -> p_ast (inv_parsed (invocation_for O P w)) = Ok (Some flat) -> raised (invocation_for O P w) = [] -> nth_error (expand_uses O P Y uses') k = Some (Code c3) ->
  u_seed u = u_seed w \/ hash_free flat ->
  (forall x, In x item_keywords -> ~ In x (ast_aliases flat)) ->
  code outer = attribute j T ++ item -> ~ In (txt "compose_item") (ast_aliases outer) ->
  proper (erase_ast outer) -> proper header -> flattened (erase_ast outer) header (erase_ast flat) ->
  exists bss, round_bindings O (new_initialized O (u_seed w) 0) (erase_ast outer) = Ok bss /\
    c1 = flat_map (fun bs => attribute j (substituted O (fun x => assoc_str x bs) T) ++ substituted O (fun x => assoc_str x bs) item) bss /\
    (built_on (erase_ast outer) header -> plain_strings O (code flat) ->
     (forall bs b, In bs bss -> In b bs -> inert O (ast_aliases header) (snd b)) ->
     (forall bs e, In bs bss -> In e (ast_exprs header) -> raw_kept O (fun x => assoc_str x bs) e) ->
     forall us c, Forall2 (stacked_on O P T item flat header (u_seed w)) bss us -> outputs_in_sequence (expand_uses O P Y us) = Code c -> c = c3).
Proof. exact stacked_built. Qed.
Print Assumptions C103_stacked.

(** All hypotheses together, for
    [#[compose_item(for t in [p, q] k = upper(t))] #[compose_item(for x in [t, b] n = concat(x, k, c))] fn n() { k("%t%-%x%") }]. *)
Example C103_example :
  let T := lex "for x in [t, b] n = concat(x, k, c)" in
  let item := lex "fn n() { k(""%t%-%x%"") }" in
  let u := use_of (ComposeItem (lex "for t in [p, q] k = upper(t)") (attribute false T ++ item)) in
  let w := use_of (ComposeItem (lex "for t in [p, q] for x in [t, b] k = upper(t), n = concat(x, k, c)") item) in
  exists outer header flat bss us,
    faithful rust (reparse rust_syntax) /\ covers rust_syntax /\ reads_back rust /\
    p_ast (inv_parsed (invocation_for rust rust_parsers u)) = Ok (Some outer) /\ raised (invocation_for rust rust_parsers u) = [] /\
    p_ast (inv_parsed (invocation_for rust rust_parsers w)) = Ok (Some flat) /\ raised (invocation_for rust rust_parsers w) = [] /\
    hash_free flat /\ (forall x, In x item_keywords -> ~ In x (ast_aliases flat)) /\
    code outer = attribute false T ++ item /\ ~ In (txt "compose_item") (ast_aliases outer) /\
    proper (erase_ast outer) /\ proper header /\ flattened (erase_ast outer) header (erase_ast flat) /\
    built_on (erase_ast outer) header /\ plain_strings rust (code flat) /\
    round_bindings rust (new_initialized rust 7 0) (erase_ast outer) = Ok bss /\
    (forall bs b, In bs bss -> In b bs -> inert rust (ast_aliases header) (snd b)) /\
    (forall bs e, In bs bss -> In e (ast_exprs header) -> raw_kept rust (fun x => assoc_str x bs) e) /\
    Forall2 (stacked_on rust rust_parsers T item flat header 7%N) bss us /\
    expand_uses rust rust_parsers rust_syntax [u] =
      [Code (lex "#[compose_item(for x in [p, b] n = concat(x, P, c))] fn n() { P(""p-%x%"") } #[compose_item(for x in [q, b] n = concat(x, Q, c))] fn n() { Q(""q-%x%"") }")] /\
    expand_uses rust rust_parsers rust_syntax us =
      [Code (lex "fn pPc() { P(""p-p"") } fn bPc() { P(""p-b"") }"); Code (lex "fn qQc() { Q(""q-q"") } fn bQc() { Q(""q-b"") }")] /\
    expand_uses rust rust_parsers rust_syntax [w] =
      [Code (lex "fn pPc() { P(""p-p"") } fn bPc() { P(""p-b"") } fn qQc() { Q(""q-q"") } fn bQc() { Q(""q-b"") }")].
Proof.
  intros T item u w.
  destruct (p_ast (inv_parsed (invocation_for rust rust_parsers u))) as [[outer|]|e|m] eqn:E1; try (vm_compute in E1; discriminate E1).
  destruct (p_ast (inv_parsed (invocation_for rust rust_parsers w))) as [[flat|]|e|m] eqn:E3; try (vm_compute in E3; discriminate E3).
  destruct (p_ast (inv_parsed (invocation_for rust rust_parsers (use_of (ComposeItem T item))))) as [[header|]|e|m] eqn:E2; try (vm_compute in E2; discriminate E2).
  destruct (round_bindings rust (new_initialized rust 7 0) (erase_ast outer)) as [bss|e|m] eqn:Eb; try (vm_compute in E1; injection E1 as <-; vm_compute in Eb; discriminate Eb).
  exists outer, (erase_ast header), flat, bss, (map (fun bs => use_of (ComposeItem (substituted rust (fun x => assoc_str x bs) T) (substituted rust (fun x => assoc_str x bs) item))) bss).
  vm_compute in E1, E2, E3. injection E1 as <-. injection E2 as <-. injection E3 as <-. vm_compute in Eb. injection Eb as <-.
  split; [exact rust_faithful|]. split; [exact rust_covers|]. split; [intros v; reflexivity|]. split; [reflexivity|]. split; [vm_compute; reflexivity|]. split; [reflexivity|]. split; [vm_compute; reflexivity|].
  split; [unfold hash_free; repeat constructor|]. split; [intros x Hx Hin; vm_compute in Hx, Hin; intuition congruence|].
  split; [vm_compute; reflexivity|]. split; [intros Hin; vm_compute in Hin; intuition congruence|]. split; [discriminate|]. split; [discriminate|]. split; [split; vm_compute; reflexivity|].
  split. { split; intros l x it Hl Hx Hi; vm_compute in Hl, Hi; intuition subst; vm_compute in Hx; intuition subst; vm_compute in *; intuition discriminate. }
  split. { intros l v p Hl Hp. vm_compute in Hl. repeat (destruct Hl as [Hl|Hl]; [try discriminate Hl|]); [injection Hl as <-|destruct Hl]. injection Hp as <- <-.
    exists [PHole (txt "t") 0; PText (txt "-"); PHole (txt "x") 0], None. split; [reflexivity|]. split; [|repeat constructor]. 
    split; [|split; [|exact I]]; [repeat (constructor; [split; [discriminate|vm_compute; intuition discriminate]|]); constructor|repeat split; auto]. }
  split; [reflexivity|]. split.
  { intros bs b Hbs Hb. vm_compute in Hbs. intuition subst; vm_compute in Hb; intuition subst; split; try (intros x Hx Hn; vm_compute in Hx, Hn; intuition congruence); split; try (intros l Hl; vm_compute in Hl; intuition discriminate); intros Hn; vm_compute in Hn; intuition discriminate. }
  split; [intros bs e Hbs He; vm_compute in Hbs; intuition subst; vm_compute in He; intuition subst; cbn; repeat split; intros [Ht|Ht]; vm_compute in Ht; discriminate Ht|].
  split; [|vm_compute; repeat split; reflexivity].
  constructor; [|constructor; [|constructor]]; (split; [reflexivity|split; [vm_compute; reflexivity|split; [left; reflexivity|eexists; split; [vm_compute; reflexivity|vm_compute; repeat split; reflexivity]]]]).
Qed.


(** Inside a block: [compose! { a = foo, { compose! { b = concat(a, _x), { fn b() { a() } } } } }]. *)
Example C103_nested_example :
  let go src := expand_uses rust rust_parsers rust_syntax [use_of (Compose (lex src))] in
  go "a = foo, { compose! { b = concat(a, _x), { fn b() { a() } } } }"%string = [Code (lex "compose! { b = concat(foo, _x), { fn b() { foo() } } }")] /\
  go "b = concat(foo, _x), { fn b() { foo() } }"%string = [Code (lex "fn foo_x() { foo() }")] /\
  go "a = foo, b = concat(a, _x), { fn b() { a() } }"%string = [Code (lex "fn foo_x() { foo() }")].
Proof. vm_compute. repeat split; reflexivity. Qed.

(** Not if a loop of the inner use mentions a definition of the outer one: with both in one
    use the loops come first, and there the name stands for itself. *)
Theorem C103_loops_refuted : exists D L item,
  let use d := expand_uses rust rust_parsers rust_syntax [use_of (ComposeItem d item)] in
  expand_uses rust rust_parsers rust_syntax [use_of (ComposeItem D (attribute false L ++ item))] = [Code (lex "#[compose_item(for x in [foo])] fn x() {}")] /\
  use (lex "for x in [foo]") = [Code (lex "fn foo() {}")] /\
  use (L ++ D) = [Code (lex "fn a() {}")].
Proof. exists (lex "a = foo"), (lex "for x in [a]"), (lex "fn x() {}"). vm_compute. repeat split; reflexivity. Qed.
Print Assumptions C103_loops_refuted.

(** Nor if [raw] or [normalize] is given the name: it is replaced in the inner use, while with
    both in one use it is taken as it is. *)
Theorem C103_raw_refuted : exists D D' item,
  let use d := expand_uses rust rust_parsers rust_syntax [use_of (ComposeItem d item)] in
  expand_uses rust rust_parsers rust_syntax [use_of (ComposeItem D (attribute false D' ++ item))] = [Code (lex "#[compose_item(b = normalize(foo::x))] fn b() {}")] /\
  use (lex "b = normalize(foo::x)") = [Code (lex "fn foo_x() {}")] /\
  use (D ++ [TPunct 44%N false] ++ D') = [Code (lex "fn a_x() {}")].
Proof. exists (lex "a = foo"), (lex "b = normalize(a::x)"), (lex "fn b() {}"). vm_compute. repeat split; reflexivity. Qed.
Print Assumptions C103_raw_refuted.
