(** C91: renaming the identifiers of an item and replacing its literals.  [naming],
    [rename_use], [rename_output], [spared], [renames], [rounds_apart] and [exchange] are in
    SpecRename. *)
From Coq Require Import String.
From Verif Require Import Base Token Types Values Ast Env Eval Expand Item Deprecation Interpreter Parse Macro SpecParse SpecForms
  ConcreteParse RustLexer RustGrammar RustInstance RustLaws SpecRename RenameMacro RustRename RustRenameLaws.
Open Scope list_scope.

(** ** C91: the code passes on the identifiers of the item that are no aliases, and the literals
    that are no strings, without looking at them *)
(** C91: if the item of every use is renamed, each in its own way, sparing the aliases of the
    use and what they stand for, the outcomes are the same, renamed. *)
Theorem C91_renamed : forall O P Y l,
  Forall (fun p => renames (fst p) O P Y /\ of_item (snd p) /\ rounds_apart (fst p) O P (snd p)) l ->
  expand_uses O P Y (map (fun p => rename_use (fst p) (snd p)) l) =
  map (fun p => rename_output (fst p) (snd p)) (combine (map fst l) (expand_uses O P Y (map snd l))).
Proof. exact uses_rename. Qed.
Print Assumptions C91_renamed.

(** C91: there is one outcome per use, so none is lost when pairing them above. *)
Theorem C91_one_outcome_each : forall O P Y uses, List.length (expand_uses O P Y uses) = List.length uses.
Proof. exact uses_counted. Qed.
Print Assumptions C91_one_outcome_each.

(** C91: if one item among others is renamed, only what it comes to is renamed. *)
Theorem C91_among_others : forall O P Y r before after u o, renames r O P Y -> of_item u -> rounds_apart r O P u ->
  nth_error (expand_uses O P Y (before ++ u :: after)) (List.length before) = Some o ->
  expand_uses O P Y (before ++ rename_use r u :: after) =
  firstn (List.length before) (expand_uses O P Y (before ++ u :: after)) ++ rename_output r o ::
  skipn (S (List.length before)) (expand_uses O P Y (before ++ u :: after)).
Proof. exact use_among. Qed.
Print Assumptions C91_among_others.

(** C91: the same of the block of [compose!], if the parsers do not look from the definitions
    into it (C53). *)
Theorem C91_block : forall O P Y r before after seed first_id next_id header item tail o, renames r O P Y -> within P -> braced P ->
  (forall b, b = item \/ b = rename r item -> stops P header (TGroup Brace b :: tail)) -> stops P header [] -> unterminated header ->
  tail = [] \/ (exists j, tail = [TPunct 44%N j]) ->
  let u src := {| u_source := src; u_seed := seed; u_first_id := first_id; u_next_id := next_id |} in
  let f b := u (Compose (header ++ comma :: TGroup Brace b :: tail)) in
  rounds_apart r O P (f item) ->
  nth_error (expand_uses O P Y (before ++ f item :: after)) (List.length before) = Some o ->
  nth_error (expand_uses O P Y (before ++ f (rename r item) :: after)) (List.length before) = Some (rename_output r o).
Proof. exact func_rename. Qed.
Print Assumptions C91_block.

(** ** The parsers *)
(** C91: the grammar of RustGrammar.v reads renamed items as it reads the items, if no two
    names become one, nor two literals, and the words of the grammar and strings are spared. *)
Theorem C91_rust : forall r, Forall (spared r) grammar_words -> (forall v p, on_literals r (LStr v p) = LStr v p) ->
  (forall x y, on_idents r x = on_idents r y -> x = y) -> (forall l m, on_literals r l = on_literals r m -> l = m) ->
  renames r rust rust_parsers rust_syntax.
Proof. exact rust_renames. Qed.
Print Assumptions C91_rust.

(** C91: so it is when two names are exchanged that are no words of the grammar, and two
    literals that are no strings. *)
Theorem C91_rust_exchange : forall a b l m, ~ In a grammar_words -> ~ In b grammar_words ->
  (forall v p, l <> LStr v p) -> (forall v p, m <> LStr v p) -> renames (exchange a b l m) rust rust_parsers rust_syntax.
Proof. exact swap_renames. Qed.
Print Assumptions C91_rust_exchange.
Theorem C91_exchange_spares : forall a b l m w, w <> a -> w <> b -> spared (exchange a b l m) w.
Proof. exact swap_spares. Qed.
Print Assumptions C91_exchange_spares.

(** [#[compose_item(for x in [one, two] a = concat(x, y))] fn a() { helper() }], with [other]
    for [helper] and [2.5] for [1u8]. *)
Example C91_example :
  let r := exchange (txt "helper") (txt "other") (LInt (txt "1") (txt "1u8")) (LOther (txt "2.5")) in
  let use b := use_of (ComposeItem (lex "for x in [one, two] a = concat(x, y)") (lex b)) in
  let u := use "#[deprecated] fn a() { helper(1u8) } struct T { helper: other }"%string in
  renames r rust rust_parsers rust_syntax /\ of_item u /\ rounds_apart r rust rust_parsers u /\
  rename_use r u = use "#[deprecated] fn a() { other(2.5) } struct T { other: helper }"%string /\
  expand_uses rust rust_parsers rust_syntax [u] = code
    "#[deprecated] fn oney() { helper(1u8) } struct T { helper: other } #[deprecated] fn twoy() { helper(1u8) } struct T { helper: other }" /\
  expand_uses rust rust_parsers rust_syntax [rename_use r u] = code
    "#[deprecated] fn oney() { other(2.5) } struct T { other: helper } #[deprecated] fn twoy() { other(2.5) } struct T { other: helper }".
Proof.
  intros r use u. split; [|split; [|split; [|split; [|split]]]]; [| | |vm_compute; reflexivity|vm_compute; reflexivity|vm_compute; reflexivity].
  - apply swap_renames; [intros H|intros H|discriminate|discriminate]; vm_compute in H; repeat destruct H as [H|H]; try discriminate H; exact H.
  - eexists _, _. reflexivity.
  - intros ast rws rw sub x v H1 H2 H3 H4 H5. vm_compute in H1. injection H1 as <-. vm_compute in H2. injection H2 as <-.
    destruct H3 as [<-|[<-|[]]]; vm_compute in H4; injection H4 as <-; repeat destruct H5 as [H5|H5]; try (injection H5 as <- <-); try contradiction H5;
      (split; [apply swap_spares; vm_compute; discriminate|vm_compute; reflexivity]).
Qed.

(** C91: aliases cannot be renamed so: with [a = x] and [a] and [helper] exchanged,
    [fn a() { helper() }] does not come to [fn x() { a() }]. *)
Theorem C91_alias_not_passed_on : exists r u, renames r rust rust_parsers rust_syntax /\ of_item u /\
  expand_uses rust rust_parsers rust_syntax [u] = code "fn x() { helper() }" /\
  rename_use r u = use_of (ComposeItem (lex "a = x") (lex "fn helper() { a() }")) /\
  expand_uses rust rust_parsers rust_syntax [rename_use r u] = code "fn helper() { x() }".
Proof.
  exists (exchange (txt "helper") (txt "a") (LInt (txt "1") (txt "1")) (LInt (txt "2") (txt "2"))), (use_of (ComposeItem (lex "a = x") (lex "fn a() { helper() }"))).
  split; [|split; [|split; [|split]]]; [| |vm_compute; reflexivity|vm_compute; reflexivity|vm_compute; reflexivity].
  - apply swap_renames; [intros H|intros H|discriminate|discriminate]; vm_compute in H; repeat destruct H as [H|H]; try discriminate H; exact H.
  - eexists _, _. reflexivity.
Qed.
Print Assumptions C91_alias_not_passed_on.

(** C91: nor may the names made from the definitions be renamed in the item: with [a = helper]
    the two calls of [fn f() { a(); helper() }] are of one function, and of two after renaming
    the item. *)
Theorem C91_captured_name : exists r u, renames r rust rust_parsers rust_syntax /\ of_item u /\
  expand_uses rust rust_parsers rust_syntax [u] = code "fn f() { helper(); helper() }" /\
  expand_uses rust rust_parsers rust_syntax [rename_use r u] = code "fn f() { helper(); other() }".
Proof.
  exists (exchange (txt "helper") (txt "other") (LInt (txt "1") (txt "1u8")) (LOther (txt "2.5"))), (use_of (ComposeItem (lex "a = helper") (lex "fn f() { a(); helper() }"))).
  split; [|split; [|split]]; [| |vm_compute; reflexivity|vm_compute; reflexivity].
  - apply swap_renames; [intros H|intros H|discriminate|discriminate]; vm_compute in H; repeat destruct H as [H|H]; try discriminate H; exact H.
  - eexists _, _. reflexivity.
Qed.
Print Assumptions C91_captured_name.
