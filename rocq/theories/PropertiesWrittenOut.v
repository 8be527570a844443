(** C107: what an alias stands for may be written out in the code.  [written_out] and
    [same_definitions] are in SpecWrittenOut, [substituted] and [leaves] in SpecSubst, [rounds] in
    SpecMacro, [code] in SpecNested. *)
From Coq Require Import String.
From Verif Require Import Base Token Types Values Ast Env Item Deprecation Interpreter Parse Macro ConcreteParse RustLexer RustGrammar RustInstance RustLaws
  SpecMacro SpecElab SpecSubst SpecItem SpecNested SpecWrittenOut WrittenOutProofs.
Open Scope list_scope.

(** Code in which some aliases are written out, at any depth, is replaced by the same code. *)
Theorem C107_code : forall O lookup ts ts', written_out O lookup ts ts' -> substituted O lookup ts' = substituted O lookup ts.
Proof. exact code_written. Qed.
Print Assumptions C107_code.

(** Values that mention no alias and hold no string come out as they are. *)
Theorem C107_plain : forall O lookup ts, (forall x, In (TIdent x) (leaves ts) -> lookup x = None) ->
  (forall l, In (TLit l) (leaves ts) -> parse_lit_str O [TLit l] = None) -> substituted O lookup ts = ts.
Proof. exact plain_tokens. Qed.
Print Assumptions C107_plain.

(** Two uses with the same definitions, the second with aliases written out in its block as they
    are in every round: if both come to code, it is the same, warnings included. *)
Theorem C107_use : forall O P Y uses i u ast c uses' j u' ast' c', faithful O (reparse Y) ->
  nth_error uses i = Some u -> p_ast (inv_parsed (invocation_for O P u)) = Ok (Some ast) -> nth_error (expand_uses O P Y uses) i = Some (Code c) ->
  nth_error uses' j = Some u' -> p_ast (inv_parsed (invocation_for O P u')) = Ok (Some ast') -> nth_error (expand_uses O P Y uses') j = Some (Code c') ->
  same_definitions ast ast' -> u_seed u' = u_seed u -> prefix_of (u_source (hd u' uses')) = prefix_of (u_source (hd u uses)) ->
  (forall x, In x item_keywords -> ~ In x (ast_aliases ast)) ->
  (forall items bs, In (Some items) (rounds ast) -> bindings O (new_initialized O (u_seed u) (u_first_id u)) items = Ok bs ->
     written_out O (fun x => assoc_str x bs) (SpecNested.code ast) (SpecNested.code ast')) ->
  c' = c.
Proof. exact (fun O P Y uses i u ast c uses' j u' ast' c' F => use_written O P Y F uses i u ast c uses' j u' ast' c'). Qed.
Print Assumptions C107_use.

(** An attribute has the same definitions on any item. *)
Theorem C107_attribute : forall O P u u' attr item item' ast ast', u_source u = ComposeItem attr item -> u_source u' = ComposeItem attr item' ->
  p_ast (inv_parsed (invocation_for O P u)) = Ok (Some ast) -> p_ast (inv_parsed (invocation_for O P u')) = Ok (Some ast') -> same_definitions ast ast'.
Proof. exact item_definitions. Qed.
Print Assumptions C107_attribute.

(** All hypotheses together: a loop, an alias that is written out at one of two places, and one
    that stands for an expression.  As it is written out without parentheses, so it is replaced:
    the sum is not multiplied. *)
Example C107_example :
  let u := use_of (ComposeItem (lex "for T in [u8, u16] f = concat(get, _, T), n = concat(two, _, one), s = 1 + 2") (lex "fn f(x: T) -> T { n(x) + s * n }")) in
  let u' := use_of (ComposeItem (lex "for T in [u8, u16] f = concat(get, _, T), n = concat(two, _, one), s = 1 + 2") (lex "fn f(x: T) -> T { two_one(x) + 1 + 2 * n }")) in
  exists ast ast',
    faithful rust (reparse rust_syntax) /\
    p_ast (inv_parsed (invocation_for rust rust_parsers u)) = Ok (Some ast) /\ p_ast (inv_parsed (invocation_for rust rust_parsers u')) = Ok (Some ast') /\
    same_definitions ast ast' /\ u_seed u' = u_seed u /\ prefix_of (u_source u') = prefix_of (u_source u) /\
    (forall x, In x item_keywords -> ~ In x (ast_aliases ast)) /\
    (forall items bs, In (Some items) (rounds ast) -> bindings rust (new_initialized rust (u_seed u) (u_first_id u)) items = Ok bs ->
       written_out rust (fun x => assoc_str x bs) (SpecNested.code ast) (SpecNested.code ast')) /\
    expand_uses rust rust_parsers rust_syntax [u] = [Code (lex "fn get_u8(x: u8) -> u8 { two_one(x) + 1 + 2 * two_one } fn get_u16(x: u16) -> u16 { two_one(x) + 1 + 2 * two_one }")] /\
    expand_uses rust rust_parsers rust_syntax [u'] = expand_uses rust rust_parsers rust_syntax [u].
Proof.
  intros u u'.
  destruct (p_ast (inv_parsed (invocation_for rust rust_parsers u))) as [[ast|]|e|m] eqn:E; try (vm_compute in E; discriminate E).
  destruct (p_ast (inv_parsed (invocation_for rust rust_parsers u'))) as [[ast'|]|e|m] eqn:E'; try (vm_compute in E'; discriminate E').
  exists ast, ast'. split; [exact rust_faithful|]. split; [reflexivity|]. split; [reflexivity|]. split; [exact (item_definitions rust rust_parsers u u' _ _ _ ast ast' eq_refl eq_refl E E')|]. split; [reflexivity|]. split; [reflexivity|].
  vm_compute in E. injection E as <-. vm_compute in E'. injection E' as <-.
  split; [intros x Hx Hin; vm_compute in Hx, Hin; intuition congruence|].
  split; [|vm_compute; split; reflexivity].
  intros items bs Hi Hb. vm_compute in Hi. destruct Hi as [Hi|[Hi|[]]]; injection Hi as <-; vm_compute in Hb; injection Hb as <-.
  all: match goal with |- written_out _ ?f (SpecNested.code ?a) (SpecNested.code ?b) => let x := eval vm_compute in (SpecNested.code a) in let y := eval vm_compute in (SpecNested.code b) in change (written_out rust f x y) end.
  all: repeat match goal with
    | |- written_out _ _ [] [] => apply WoNil
    | |- written_out _ _ (?t :: _) (?t :: _) => apply WoKeep
    | |- written_out _ _ (TGroup ?d _ :: _) (TGroup ?d _ :: _) => apply WoInside
    | |- written_out ?O ?f (TIdent ?x :: ?ts) ?l =>
        match eval vm_compute in (f x) with Some ?v =>
          let k := eval vm_compute in (List.length (to_tokens v)) in let rest := eval vm_compute in (skipn k l) in
          change (written_out O f (TIdent x :: ts) (to_tokens v ++ rest)); apply WoHere; [vm_compute; reflexivity|vm_compute; reflexivity|] end
    end.
Qed.

(** Not if the value mentions an alias: what is inserted is not replaced again, what is written
    out is. *)
Theorem C107_alias_refuted : exists u u',
  u = use_of (Compose (lex "a = b, b = foo, { fn f() { a } }")) /\ u' = use_of (Compose (lex "a = b, b = foo, { fn f() { b } }")) /\
  expand_uses rust rust_parsers rust_syntax [u] = [Code (lex "fn f() { b }")] /\
  expand_uses rust rust_parsers rust_syntax [u'] = [Code (lex "fn f() { foo }")].
Proof. do 2 eexists. split; [reflexivity|]. split; [reflexivity|]. vm_compute. split; reflexivity. Qed.
Print Assumptions C107_alias_refuted.

(** Nor if it is a string with a placeholder. *)
Theorem C107_strings_refuted : exists u u',
  u = use_of (Compose (lex "s = ""%n%"", n = foo, { fn f() { s } }")) /\ u' = use_of (Compose (lex "s = ""%n%"", n = foo, { fn f() { ""%n%"" } }")) /\
  expand_uses rust rust_parsers rust_syntax [u] = [Code (lex "fn f() { ""%n%"" }")] /\
  expand_uses rust rust_parsers rust_syntax [u'] = [Code (lex "fn f() { ""foo"" }")].
Proof. do 2 eexists. split; [reflexivity|]. split; [reflexivity|]. vm_compute. split; reflexivity. Qed.
Print Assumptions C107_strings_refuted.

(** Failures differ: with the number written out the block is not read in the first place. *)
Theorem C107_read_refuted : exists u u',
  u = use_of (Compose (lex "n = 1, { struct n; }")) /\ u' = use_of (Compose (lex "n = 1, { struct 1; }")) /\
  expand_uses rust rust_parsers rust_syntax [u] = [CompileError (SubstitutionError (txt "n"))] /\
  expand_uses rust rust_parsers rust_syntax [u'] = [SyntaxError].
Proof. do 2 eexists. split; [reflexivity|]. split; [reflexivity|]. vm_compute. split; reflexivity. Qed.
Print Assumptions C107_read_refuted.
