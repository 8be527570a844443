(** C108: a definition may be replaced by the value it comes to.  [computed] and
    [values_as_definitions] are in SpecComputed, [bindings] in SpecElab, [rounds] in SpecMacro,
    [same_otherwise] and [with_definitions] in SpecOrder, [scomputed] in SpecSpanComputed. *)
From Coq Require Import String.
From Verif Require Import Base Token Types Values Ast Env Item Deprecation Interpreter Parse Macro ConcreteParse RustLexer RustGrammar RustInstance
  SpecPrograms SpecMacro SpecElab SpecRepro SpecDeprecation SpecOrder SpecComputed ElabFacts ComputedProofs
  SpanTokens SpanWalker SpanValues SpanEval SpanInstance SpanDressProofs SpecSpanEval SpecSpanComputed SpanComputedProofs.
Open Scope list_scope.

(** Any number of definitions, each replaced by what it comes to after the ones before: the other
    definitions see no difference, and the same error is reported if there is one. *)
Theorem C108_definitions : forall O seed first_id items items', computed O (new_initialized O seed first_id) [] items items' ->
  bindings O (new_initialized O seed first_id) items' = bindings O (new_initialized O seed first_id) items.
Proof. exact (fun O seed first_id => definitions_computed O seed first_id []). Qed.
Print Assumptions C108_definitions.

(** In particular all of them. *)
Theorem C108_values : forall O seed first_id items bs, bindings O (new_initialized O seed first_id) items = Ok bs ->
  (forall x, In (VIdent x) (map snd bs) -> ~ In x (map fst items)) ->
  bindings O (new_initialized O seed first_id) (values_as_definitions bs) = Ok bs.
Proof. exact values_written. Qed.
Print Assumptions C108_values.

(** Two uses that differ in definitions that are replaced by the values that they have in every
    round: they come to the same, code or failure. *)
Theorem C108_use : forall O P Y uses i j u u' ast ast', nth_error uses i = Some u -> nth_error uses j = Some u' -> u_seed u = u_seed u' ->
  p_ast (inv_parsed (invocation_for O P u)) = Ok (Some ast) -> p_ast (inv_parsed (invocation_for O P u')) = Ok (Some ast') ->
  raised (invocation_for O P u) = raised (invocation_for O P u') -> same_otherwise ast ast' ->
  (forall items, In (Some items) (rounds (with_definitions (erase_ast ast) [])) ->
     computed O (new_initialized O (u_seed u) 0) items (erase_items (own_items ast)) (erase_items (own_items ast'))) ->
  nth_error (expand_uses O P Y uses) j = nth_error (expand_uses O P Y uses) i.
Proof. exact use_computed. Qed.
Print Assumptions C108_use.

(** The values of loops may be replaced as well: it is enough that the definitions of every
    round, those of the loops included, are replaced by their values. *)
Theorem C108_rounds : forall O P Y uses i j u u' ast ast', nth_error uses i = Some u -> nth_error uses j = Some u' -> u_seed u = u_seed u' ->
  p_ast (inv_parsed (invocation_for O P u)) = Ok (Some ast) -> p_ast (inv_parsed (invocation_for O P u')) = Ok (Some ast') ->
  raised (invocation_for O P u) = raised (invocation_for O P u') -> ast_block ast = ast_block ast' ->
  Forall2 (computed_round O (new_initialized O (u_seed u) 0)) (rounds (erase_ast ast)) (rounds (erase_ast ast')) ->
  nth_error (expand_uses O P Y uses) j = nth_error (expand_uses O P Y uses) i.
Proof. exact rounds_computed. Qed.
Print Assumptions C108_rounds.

(** All hypotheses together, with a loop; of the three definitions the first and the last are
    replaced, the second depends on the loop. *)
Example C108_example :
  let u := use_of (Compose (lex "for T in [u8, u16] n = upper(my_name), f = concat(lower(n), _, T), s = concat(""<"", to_str(n), "">""), { fn f(x: T) -> T { g(s, n) } }")) in
  let u' := use_of (Compose (lex "for T in [u8, u16] n = MY_NAME, f = concat(lower(n), _, T), s = ""<MY_NAME>"", { fn f(x: T) -> T { g(s, n) } }")) in
  exists ast ast',
    p_ast (inv_parsed (invocation_for rust rust_parsers u)) = Ok (Some ast) /\ p_ast (inv_parsed (invocation_for rust rust_parsers u')) = Ok (Some ast') /\
    u_seed u = u_seed u' /\ raised (invocation_for rust rust_parsers u) = raised (invocation_for rust rust_parsers u') /\ same_otherwise ast ast' /\
    (forall items, In (Some items) (rounds (with_definitions (erase_ast ast) [])) ->
       computed rust (new_initialized rust (u_seed u) 0) items (erase_items (own_items ast)) (erase_items (own_items ast'))) /\
    erase_items (own_items ast) <> erase_items (own_items ast') /\
    expand_uses rust rust_parsers rust_syntax [u; u'] =
      (let c := Code (lex "fn my_name_u8(x: u8) -> u8 { g(""<MY_NAME>"", MY_NAME) } fn my_name_u16(x: u16) -> u16 { g(""<MY_NAME>"", MY_NAME) }") in [c; c]).
Proof.
  intros u u'.
  destruct (p_ast (inv_parsed (invocation_for rust rust_parsers u))) as [[ast|]|e|m] eqn:E; try (vm_compute in E; discriminate E).
  destruct (p_ast (inv_parsed (invocation_for rust rust_parsers u'))) as [[ast'|]|e|m] eqn:E'; try (vm_compute in E'; discriminate E').
  exists ast, ast'. split; [reflexivity|]. split; [reflexivity|]. split; [reflexivity|]. split; [reflexivity|].
  vm_compute in E. injection E as <-. vm_compute in E'. injection E' as <-. split; [split; vm_compute; reflexivity|].
  split; [|split; [vm_compute; discriminate|vm_compute; reflexivity]].
  intros items Hi. vm_compute in Hi. destruct Hi as [Hi|[Hi|[]]]; injection Hi as <-.
  all: match goal with |- computed _ _ ?p ?a ?b => let x := eval vm_compute in a in let y := eval vm_compute in b in change (computed rust (new_initialized rust (u_seed u) 0) p x y) end.
  all: repeat match goal with
    | |- computed _ _ _ [] [] => apply CpNil
    | |- computed _ _ _ (?d :: _) (?d :: _) => apply CpKeep
    | |- computed ?O ?env ?p ((?a, ?e) :: _) ((?a, EValue _ ?w) :: _) =>
        match eval vm_compute in (bindings O env p) with Ok ?bs => apply (CpValue O env p a e bs w) end;
        [vm_compute; reflexivity|intros x Hx Hin; try discriminate Hx; injection Hx as <-; vm_compute in Hin; intuition discriminate|cbn [app]]
    end.
Qed.

(** Loops with computed values; in the second loop the value depends on the first one. *)
Example C108_loops :
  let u := use_of (Compose (lex "for (x, n) in [(upper(a), 1), (upper(b), 2)] for y in [concat(x, _, n)] { const y: u8 = n; }")) in
  let u' := use_of (Compose (lex "for (x, n) in [(A, 1), (B, 2)] for y in [concat(x, _, n)] { const y: u8 = n; }")) in
  exists ast ast',
    p_ast (inv_parsed (invocation_for rust rust_parsers u)) = Ok (Some ast) /\ p_ast (inv_parsed (invocation_for rust rust_parsers u')) = Ok (Some ast') /\
    u_seed u = u_seed u' /\ raised (invocation_for rust rust_parsers u) = raised (invocation_for rust rust_parsers u') /\ ast_block ast = ast_block ast' /\
    Forall2 (computed_round rust (new_initialized rust (u_seed u) 0)) (rounds (erase_ast ast)) (rounds (erase_ast ast')) /\
    expand_uses rust rust_parsers rust_syntax [u; u'] = (let c := Code (lex "const A_1: u8 = 1; const B_2: u8 = 2;") in [c; c]).
Proof.
  intros u u'.
  destruct (p_ast (inv_parsed (invocation_for rust rust_parsers u))) as [[ast|]|e|m] eqn:E; try (vm_compute in E; discriminate E).
  destruct (p_ast (inv_parsed (invocation_for rust rust_parsers u'))) as [[ast'|]|e|m] eqn:E'; try (vm_compute in E'; discriminate E').
  exists ast, ast'. split; [reflexivity|]. split; [reflexivity|]. split; [reflexivity|]. split; [reflexivity|].
  vm_compute in E. injection E as <-. vm_compute in E'. injection E' as <-. split; [vm_compute; reflexivity|]. split; [|vm_compute; reflexivity].
  match goal with |- Forall2 _ ?a ?b => let x := eval vm_compute in a in let y := eval vm_compute in b in change (Forall2 (computed_round rust (new_initialized rust (u_seed u) 0)) x y) end.
  repeat (apply Forall2_cons; [cbn [computed_round]|]); [| |apply Forall2_nil].
  all: repeat match goal with
    | |- computed _ _ _ [] [] => apply CpNil
    | |- computed _ _ _ (?d :: _) (?d :: _) => apply CpKeep
    | |- computed ?O ?env ?p ((?a, ?e) :: _) ((?a, EValue _ ?w) :: _) =>
        match eval vm_compute in (bindings O env p) with Ok ?bs => apply (CpValue O env p a e bs w) end;
        [vm_compute; reflexivity|intros x Hx Hin; try discriminate Hx; injection Hx as <-; vm_compute in Hin; intuition discriminate|cbn [app]]
    end.
Qed.

(** A use that fails: [b] has one argument too many, whichever way [a] is written. *)
Example C108_failing : exists u u',
  u = use_of (Compose (lex "a = upper(x), b = upper(a, a), { fn b() {} }")) /\ u' = use_of (Compose (lex "a = X, b = upper(a, a), { fn b() {} }")) /\
  expand_uses rust rust_parsers rust_syntax [u; u'] = [CompileError (SignatureError (txt "upper")); CompileError (SignatureError (txt "upper"))].
Proof. do 2 eexists. split; [reflexivity|]. split; [reflexivity|]. vm_compute. reflexivity. Qed.

(** The side condition: a value that is the name of an alias is replaced again. *)
Theorem C108_alias_refuted : exists u u',
  u = use_of (Compose (lex "x = foo, a = lower(X), { fn a() {} }")) /\ u' = use_of (Compose (lex "x = foo, a = x, { fn a() {} }")) /\
  expand_uses rust rust_parsers rust_syntax [u; u'] = [Code (lex "fn x() {}"); Code (lex "fn foo() {}")].
Proof. do 2 eexists. split; [reflexivity|]. split; [reflexivity|]. vm_compute. reflexivity. Qed.
Print Assumptions C108_alias_refuted.

(** The value must be the same, not only its tokens: the type of a name is written like the name,
    which is read as an identifier. *)
Theorem C108_tokens_refuted : exists u u',
  u = use_of (Compose (lex "t = to_type(x), a = upper(t), { fn a() {} }")) /\ u' = use_of (Compose (lex "t = x, a = upper(t), { fn a() {} }")) /\
  expand_uses rust rust_parsers rust_syntax [u; u'] = [CompileError (SignatureError (txt "upper")); Code (lex "fn X() {}")].
Proof. do 2 eexists. split; [reflexivity|]. split; [reflexivity|]. vm_compute. reflexivity. Qed.
Print Assumptions C108_tokens_refuted.

(** With spans: values and errors are the same, and so are the places they come from. *)
Theorem C108_spans : forall O SO, spanless O SO -> forall seed first_id items items', scomputed O SO (new_initialized O seed first_id) [] items items' ->
  sbindings O SO (new_initialized O seed first_id) items' = sbindings O SO (new_initialized O seed first_id) items.
Proof. exact (fun O SO H seed first_id => definitions_scomputed O SO H seed first_id []). Qed.
Print Assumptions C108_spans.

(** [n = upper(a), p = concat(n, 1), q = to_path(1)] fails at the last [1]; so it does with
    [n = A, p = A1], provided that [A] has the span of [a] and [A1] that of the macro call. *)
Example C108_places :
  let q := (txt "q", SECall 6 (txt "to_path") 30 [SEValue 7 (SVLitInt (txt "1") (txt "1") 32)] None)%N in
  let items := [(txt "n", SECall 1 (txt "upper") 10 [SEValue 2 (SVIdent (txt "a") 11)] None);
    (txt "p", SECall 3 (txt "concat") 20 [SEValue 4 (SVIdent (txt "n") 21); SEValue 5 (SVLitInt (txt "1") (txt "1") 22)] None); q]%N in
  let items' := [(txt "n", SEValue 8 (SVIdent (txt "A") 11)); (txt "p", SEValue 9 (SVIdent (txt "A1") call_site)); q]%N in
  spanless rust (dressed rust) /\ scomputed rust (dressed rust) (new_initialized rust 7 0) [] items items' /\
  sbindings rust (dressed rust) (new_initialized rust 7 0) (firstn 2 items) = SOk [(txt "n", SVIdent (txt "A") 11%N); (txt "p", SVIdent (txt "A1") call_site)] /\
  exists er, sbindings rust (dressed rust) (new_initialized rust 7 0) items = SErr er 32%N.
Proof.
  intros q items items'. split; [apply dressed_spanless|]. split.
  - apply (ScValue _ _ _ [] _ _ []); [vm_compute; reflexivity|intros x s _ []|].
    apply (ScValue _ _ _ _ _ _ [(txt "n", SVIdent (txt "A") 11%N)]); [vm_compute; reflexivity|intros x s H [E|[]]; injection H as <- _; discriminate E|].
    apply ScKeep, ScNil.
  - split; [vm_compute; reflexivity|]. destruct (sbindings rust (dressed rust) (new_initialized rust 7 0) items) as [r|er s|m] eqn:E; vm_compute in E; try discriminate E.
    injection E as _ <-. exists er. reflexivity.
Qed.
Print Assumptions C108_places.
