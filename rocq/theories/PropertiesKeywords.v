(** C83: aliases named like a keyword.  The block in pieces ([block_pieces], [pieces_code],
    [block_keywords]), the meaning of a use with the keywords left alone ([kept_meaning]) and
    the words themselves ([reserved], [contextual]) are in SpecKeywords. *)
From Coq Require Import String.
From Verif Require Import ConcreteParse RustLexer RustInstance RustLaws
  Base Token Types Values Ast Env Item AliasSubstitution Deprecation Interpreter Parse Macro
  SpecElab SpecSubst SpecItem SpecParse SpecDeprecation SpecMacro SpecOutcome SpecKeywords KeywordsProofs.
Open Scope list_scope.

(** The pieces, unchanged, are the block without the where clauses of C25; the keywords between
    them are among eleven words. *)
Theorem C83_pieces : forall l, pieces_code (fun ts => ts) (block_pieces l) = block_tokens (map drop_where_stmt l).
Proof. exact block_printed. Qed.
Print Assumptions C83_pieces.
Theorem C83_words : forall l x, In x (block_keywords l) -> In x (reserved ++ contextual).
Proof. exact kept_words. Qed.
Print Assumptions C83_words.

(** Whatever the aliases are named, the code is the block with every piece replaced and every
    keyword kept. *)
Theorem C83_block : forall O lookup reparse, faithful O reparse -> forall l l',
  visit_block O lookup reparse l = Ok l' -> block_tokens l' = pieces_code (substituted O lookup) (block_pieces l).
Proof. exact block_pieces_emit. Qed.
Print Assumptions C83_block.

(** The exact outcome of a use, as in C44 but for any aliases. *)
Theorem C83_use : forall O Y P uses i u ast, faithful O (reparse Y) -> nth_error uses i = Some u ->
  p_ast (inv_parsed (invocation_for O P u)) = Ok (Some ast) ->
  nth_error (expand_uses O P Y uses) i = Some
    match kept_meaning O (reparse Y) (new_initialized O (u_seed u) (u_first_id u))
            (with_warnings Y (prefix_of (u_source (hd u uses))) (raised (invocation_for O P u))) ast with
    | Ok ts => Code ts | Err e => CompileError e | Panic p => Panicked p
    end.
Proof. exact use_kept. Qed.
Print Assumptions C83_use.

(** It is that of C44 if no keyword of this block is an alias. *)
Theorem C83_plain : forall O Y env finish ast, (forall x, In x (block_keywords (ast_block ast)) -> ~ In x (ast_aliases ast)) ->
  kept_meaning O (reparse Y) env finish ast = exact_meaning O (reparse Y) env finish ast.
Proof. exact kept_plain. Qed.
Print Assumptions C83_plain.

(** Every alias of a use, in a definition or in a loop, is a name that the parser accepts. *)
Theorem C83_aliases : forall O P u ast, p_ast (inv_parsed (invocation_for O P u)) = Ok (Some ast) ->
  Forall (fun x => ident_allowed P x = true) (ast_aliases ast).
Proof. exact aliases_allowed. Qed.
Print Assumptions C83_aliases.

(** So where reserved words are not names, only [union], [auto] and [default] matter. *)
Theorem C83_reserved : forall O P Y u ast env finish, reserves P -> p_ast (inv_parsed (invocation_for O P u)) = Ok (Some ast) ->
  (forall x, In x contextual -> In x (block_keywords (ast_block ast)) -> ~ In x (ast_aliases ast)) ->
  kept_meaning O (reparse Y) env finish ast = exact_meaning O (reparse Y) env finish ast.
Proof. exact reserved_plain. Qed.
Print Assumptions C83_reserved.
Theorem C83_laws : reserves rust_parsers /\ faithful rust (reparse rust_syntax).
Proof. exact (conj rust_reserves rust_faithful). Qed.
Print Assumptions C83_laws.

(** [union], [default] and [auto] as aliases: the names and types are replaced and the keywords
    are not; a reserved word is a syntax error. *)
Example C83_example :
  let use x := use_of (Compose (lex x)) in
  expand_uses rust rust_parsers rust_syntax (map use [
    "union = foo, { union U { a: union } fn union() {} }";
    "for default in [a, b] { impl X for Y { default fn default() {} } }";
    "auto = Foo, { auto trait auto {} }";
    "struct = foo, { struct S; }"]%string) =
    [Code (lex "union U { a: foo } fn foo() {}");
     Code (lex "impl X for Y { default fn a() {} } impl X for Y { default fn b() {} }");
     Code (lex "auto trait Foo {}");
     SyntaxError].
Proof. vm_compute. reflexivity. Qed.

(** An alias [union] is thus not replaced everywhere: without the condition of C44 its meaning
    is not that of the code. *)
Theorem C83_everywhere_refuted : exists O P Y u ast ts, faithful O (reparse Y) /\ reserves P /\
  p_ast (inv_parsed (invocation_for O P u)) = Ok (Some ast) /\ In (txt "union") (ast_aliases ast) /\
  expand_uses O P Y [u] = [Code ts] /\
  exact_meaning O (reparse Y) (new_initialized O (u_seed u) (u_first_id u)) (with_warnings Y (prefix_of (u_source u)) []) ast <> Ok ts.
Proof.
  eexists rust, rust_parsers, rust_syntax, (use_of (Compose (lex "union = foo, { union U { a: u8 } }"))), _, _.
  split; [exact rust_faithful|]. split; [exact rust_reserves|]. split; [vm_compute; reflexivity|]. split; [left; reflexivity|].
  split; [vm_compute; reflexivity|]. vm_compute. discriminate.
Qed.
Print Assumptions C83_everywhere_refuted.
