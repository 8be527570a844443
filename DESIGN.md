# Formal model of compose-idents in Rocq (Coq 8.16)

## What is modelled and how

`/repo` is a procedural-macro crate.  One invocation runs

    parse -> expand (loops) -> resolve (overloads, coercions) -> eval -> substitute -> emit

Each phase gets its own model file of total, executable Gallina functions,
written function by function from the Rust source; every definition has a
comment citing file and lines.  Specifications live in separate small files and
do not call the model's helpers; proofs live in separate files; property
theorems live in files `Properties*.v` which only contain `Theorem ... exact ...`,
`Print Assumptions` and `Example`s showing that the hypotheses can be met.

Conventions

* characters are Unicode code points (`N`), strings are lists of them;
* `Result`/`Option` stay data, `panic!`/`unreachable!`/`Ident::new` on a bad
  string are an explicit `Panic` outcome;
* `&mut` functions return the new value; loops are structural recursion or
  recursion on fuel with an explicit out-of-fuel outcome that the theorems
  exclude (they prove that the fuel suffices);
* tokens have no spans, except in the Span files, which model the whole macro again on
  tokens with spans, with the messages of syntax errors, and prove that erasing them
  gives the model without;
* calls into `syn`, `quote`, `proc-macro2`, `heck`, `std` hashing and Unicode
  tables are fields of oracle records; theorems quantify over every oracle, or
  over every oracle satisfying an explicitly stated law, and a concrete ASCII
  instance shows that the laws are satisfiable.

## Trusted base

* Coq's kernel (8.16.1) and the `Print Assumptions` output of every theorem
  (expected everywhere: "Closed under the global context").
* That the Gallina definitions say what the Rust source says.  The code is never
  run here; the citation in each definition's comment is one tie.  The other is
  the repository's own test suite: its cases are computed on the model (section
  "The repository's tests").
* The oracles' interfaces (what is a parameter instead of a definition): `syn`
  parsers (`Ident`, `Path`, `Type`, `Expr`, `LitStr`, `LitInt`, whole-fragment
  re-parse), `TokenStream::to_string`, `Ident::new`'s validity check, `heck`'s
  case conversions, `str::to_uppercase/lowercase`, `char::is_alphanumeric/
  is_numeric/is_whitespace`, `DefaultHasher`.

## Properties

| id | model | plan |
|----|-------|------|
| C01, C02 | CrossProduct, Expand | odometer state machine refined to the recursive list product; induction on the sources |
| C03 | CrossProduct | reachable-state invariant: mixed-radix value of indices = number of items taken |
| C04, C05 | Tuple, Expand | BFS queue machine vs. path-indexed lookup; C05 is refuted by a witness, the exact acceptance criterion is proved |
| C06, C07 | Resolve, Eval | induction over the alias list; prefix stability |
| C08, C09, C10 | Resolve | stable sort on (cost, variadic, arity, id) = unique minimum; permutation and renumbering invariance; type abstraction |
| C11 | Types | finite case analysis lifted over nested variadics |
| C12 | Resolve, Eval, Env | refinement of id-keyed metadata by a typed elaboration; progress/preservation |
| C13, C14 | Env, Resolve | closed-form costs for all argument lists; C14 expected to be refuted (cost comparison prefers `concat(ident, tokens...)`) |
| C15, C16, C17 | Normalize | state-machine invariant; C17 refuted by witness |
| C18, C19, C20 | FormatString | refinement to a piece-wise specification; C20 refuted by witness, exact law for runs of `%` proved |
| C21, C22, C23 | StreamWalker | explicit-stack cursor machine refined to a recursive map; measure for termination |
| C24 | SubstituteIdents | sequence of intermediate streams |
| C25, C26 | Visitor | item trees with token-list leaves; C25 refuted because `where` clauses are dropped by re-parsing `Generics` |
| C27, C28, C29 | Deprecation | history invariant; traversal vs. pre-order specification; C29 refuted (first prefix sticks in the thread) |
| C30 | Parse | separator automaton vs. list specification |
| C31, C32 | ParseValue, TokenDistance | fold-of-candidates vs. argmax specification; leaf counts |
| C33, C34 | Interpreter | first-error monad over the list of rewrites |
| C35, C36 | Env, Eval | unfolding through resolve/eval for all inputs |
| C37 | ParseValue/Resolve | invariant: every parsed call names a known function |
| C38 | Types | expected refuted (`expr`, `raw` are not parsed) |
| C39 | UniqueId | counter mod 2^64, interleavings are lists of fetch-add events |
| C40 | Values | case analysis over the cast function |
| C41-C43 | Macro | composition of the phases vs. a direct definition of the meaning |
| C44 | AliasSubstitution, Macro | induction over items; failures of parts in order |
| C45 | Parse, Env, Macro | results at two counters equal up to erasing ids; naturality of loop expansion |
| C49, C50 | Resolve, Messages | first refused definition; texts injective by their separators; call texts refuted, and injective when parentheses match and strings end |
| C51 | Costs | resolver over any arithmetic; weight bounds every recorded cost; overflow witnesses; the parser makes nothing heavier than its tokens |
| C52 | Work | resolver with a counter; bounds by induction, also in terms of the source tokens |
| C53, C54 | Parse, Macro | both parsers on a header with and without the tokens behind its last comma; prefix seen in warnings only |
| C55 | Parse, Expand, Macro | `rounds` (SpecMacro) as inputs of their own; the parsers on `for x in [..] rest` and on `x = v, rest`; any number of loops with any patterns (SpecUnrollAll), by the grammar of C59 |
| C48 | Env, Resolve, Eval | table of the functions' meanings, all argument values |
| C59 | Parse | relations between tokens and trees without ids; the parsers compute them, by induction on the size of the tokens |
| C60 | Failures, SpanValues, SpanEval | the texts of errors beside their places; a chosen overload never needs a failing cast of a call's result (BuiltinCasts) |
| C56-C58 | SpanWalker, SpanValues, SpanEval | the walker and the evaluator on tokens with spans; the specifications with spans, erasure to those without, provenance by induction |
| C61, C62 | SpanParse, SpanExpand, SpanItem, SpanVisitor, SpanDeprecation, SpanMacro | each function erased against its model without spans; provenance: every span in a set closed under `join` stays there, function by function |
| C63 | SpanParse, SpanMacro | relation between tokens with spans and messages over the grammar of C59; for each parser a lemma that exactly one of success, a message of the relation, or unread tokens is the case |
| C64 | SpanExpand, SpanMacro | the expansion of loops with spans is the rounds' in sequence, by the same position lemma for the product iterator as C08; relations `fits` / `misfits` for patterns and values, exhaustive and exclusive |
| C65 | SpanMacro | every compile error is a misfit, or of the first round that fails: at a definition (C60) or, by induction over items, at an identifier of the block named like the alias |
| C66 | Interpreter, Resolve, Eval, AliasSubstitution | elaboration and evaluation with and without the definition (the same types and values for every other name); replacement of a name that does not occur in the parts of the block (SpecOrder) |
| C67 | the same | exchange of neighbours that do not mention each other, closed under repetition; the same lookups |
| C68 | Interpreter, AliasSubstitution | the visit of `b1 ++ b2` as the visits of `b1` and `b2` |
| C69 | InvisibleParse, InvisibleMacro | the parser on positions with invisible groups against Parse.v on the flattened tokens, for any set of positions closed under going on; the distance by the entries of the buffer between two cursors |
| C70 | Env, Resolve, Eval | type and cost of a nested call computed from the bottom (`synth`), by a lemma per function on which overload each list of argument types and costs selects; then the value by the table of C48; the laws (naming, exchange, flattening) from the meaning alone |
| C71 | Threads | threads as programs that draw ids (resumptions), a machine that runs them by a schedule; what a program receives is its part of the counter's history; renumbering (C09) with ids that have gaps |
| C72 | Expand, Interpreter, Macro | the rounds of an input (C55) as a list of results; loops split, their values shuffled, unrelated neighbours exchanged; Cartesian products cut into quadruples so that both orders range over the same index |
| C73 | Macro, Interpreter, AliasSubstitution, FormatString | a use in the block of another against the flat use; the inner uses are those with the substituted tokens, taken as separate invocations (the compiler expands what a macro yields afterwards); two substitutions composed (SpecNested) |
| C74 | RustText, Resolve, Eval | heck's scanner with its mode against words found position by position (SpecCasing); what joined words split into; exactness by lengths; the laws in definitions from C70 |
| C75 | Env, Eval, RustText | the functions of C48 on names with `#`, for every oracle that refuses such names; counterexamples |
| C76 | SubstWork | visitor with a log of the parsed streams; parts as in C44 |
| C77 | RustText, Env | a decoder of the hashed bytes (SpecHash) is a left inverse of the encoder |
| C78 | Env, Eval, Macro | each function and cast enlarges its arguments by a factor; induction over expressions and definitions; lower bound by a family of inputs |
| C79 | ParseWork | a copy of the parser that counts; the count is charged to the tokens that an item takes, and to its first token if it takes none |
| C80 | Parse, Eval, Macro | an invariant of identifiers carried from the tokens through parsing, evaluation, substitution and warnings; the grammar of the Rust instance keeps it too |
| C81 | SpanVisitor, SpanItem, SpanMacro | printing what the visitor made, case by case, against the tokens of the block replaced one by one; spans of single delimiters not looked at; for the instance also reading, against the tokens read |
| C82 | InvisibleMacro, Interpreter, Eval, AliasSubstitution, Deprecation | two runs side by side, of the input and of the input without the groups: elaboration commutes with dropping them, each builtin respects streams that differ in them, the stages of substitution correspond one to one, the traversal for warnings sees the same nodes |
| C83 | AliasSubstitution, Parse, Macro | the block in pieces with the keywords of items between; induction over items without a condition on the aliases; names of aliases through the parser |
| C84 | SpanParse | relations between tokens and what is read, with spans, each parser by induction over the annotated tokens, nothing assumed of syn; with the grammar of C59 exactly one reading, the converse by determinism of the relations (there syn is assumed to parse alike whatever the spans) |
| C85 | HashMaps | the maps as lists of entries iterated in any permutation; names are distinct (C06), so lookups agree; substitution depends on lookups only |
| C86 | SpanInvisible, SpanInvisibleMacro | erasing the spans commutes with each parser (to InvisibleParse); spans in any set that has those of the input, parser by parser; on visible input each entry is a token and the parser is that of SpanParse; ids of what InvisibleParse reads are distinct (InvisibleIds) |
| C87 | SpanInvisible, SpanParse | the parser on positions with invisible groups and the one without, step by step (SpanInvisibleSame): entries, tokens taken, spans of what begins there, messages; `sreading_through` meets the hypotheses |
| C88 | SpanInvisibleMacro | the proofs of C64, C65, C81 and C83 for any way of parsing (SpanThroughRun); what is read and what is said of rejected uses from C87 |
| C89 | SpanMacro and all below it | every function commutes with replacing the spans of its input: substitution, casts, functions, resolution, parser, items, visitor, deprecations, loops; the parser on related annotated tokens; `dressed` parsers meet the laws for every replacement that keeps `call_site` |
| C90 | SpanInvisibleMacro and the parser of SpanInvisible | the proof of C89 with the parser on entries of groups; a run of one moved use among others |
| C91 | SubstituteIdents, AliasSubstitution, Deprecation, Interpreter, Macro | every step commutes with renaming: walker, visitor, printing, traversal; the grammar of the instance, nonterminal by nonterminal; counterexamples for aliases and captured names |
| C92 | Parse, Env, Resolve, Eval, Macro | congruence of every parser in the question whether a name is a function; relation between elaborations whose overloads differ by a shift of ids per function; counterexample for a called name |
| C93 | Resolve, Eval, Macro | among overloads in the order of their ids the best is the first of the best by cost, variadicity and arity; lists of overloads with refused ones in between yield the same candidates; counterexample for an overload that is not refused |
| C94 | Resolve, Eval, Macro | elaboration with more overloads: nothing gets dearer, and a term without added overloads is the term of before at its cost; the best candidates related by induction; the recorded overloads are those of the term; counterexamples for an overload that is taken and for a definition that changes its type |
| C95 | FormatString, SubstituteIdents | from C19 and C21; the names of a path by induction over its spelling; counterexample of two types shown alike |
| C96 | Resolve, Eval, Env | exchange of a definition for one of the same type and value, by the elaboration of C42; counterexamples of a string and an integer |
| C97 | Parse, Deprecation, Interpreter | parsing of a list of definitions whose values are read alone, with either separator; the blocks depend on the definitions only; counterexamples of plain values |
| C98 | Parse, Eval, AliasSubstitution, Interpreter | longest-match of C31 on a bracket; binding of values by the elaboration of C42; failure of name substitution |
| C99 | FormatString | the states of C19 for an escaped text; impossibility by values of one character that occurs nowhere else |
| C100 | AliasSubstitution | mutual induction over items: what the visitor makes is fit for it and has no where clauses; then C25 and C26 |
| C101 | Resolve, Eval, AliasSubstitution | C70's meaning of definitions and its types; the texts `concat` joins have a quotation mark after names only; failure of name substitution as in C98 |
| C102 | Macro, Interpreter, AliasSubstitution | `#[compose_item]` below another `#[compose_item]` against one attribute; as C73, the upper attribute is expanded first and what it yields is given to the lower one as a separate use (the order is the compiler's) |
| C103 | Macro, Resolve, Eval, AliasSubstitution | as C73 and C102, but the inner use may mention aliases of the outer one: the parsed inner header is the given one with the values in the place of names (`put_in`; that substituted tokens parse to this is a hypothesis about the uses found, met in the example); definitions compared by C46's relation between leaves |
| C104 | Parse, Macro, AliasSubstitution | the identifiers of a whole use replaced by others: `reads_alike` of the parsers, proved of the Rust instance for every renaming that spares the words of the grammar and all literals; for aliases that stand for identifiers the hypothesis of C103 about the uses found is discharged |
| C105 | Parse, Macro, Elab, AliasSubstitution | all aliases of a use renamed at once in its source (loops, tuple patterns, definitions, block): same code, given that a renamed identifier is an alias defined before where it is mentioned and placeholders keep their names; the parser laws are those of C104, proved of the Rust instance for exchanged names |
| C106 | Parse, Macro, Elab, AliasSubstitution, Interpreter | the same renaming as C105 with failures and deprecation warnings: same code and warnings, or the same error or panic, where the two errors that name an alias (redefinition, substitution) name the other one; uses the exact outcome of C44, and assumes besides that re-parsing commutes with renaming (the laws of C91) and that no value holds a renamed identifier |
| C107 | Parse, Macro, Elab, AliasSubstitution | two uses with the same definitions, the second with some aliases written out in its block: the same code when both come to code, for values that come out of substitution as they are; needed for values that mention an alias and for strings with placeholders |
| C108 | Parse, Macro, Elab | two uses, in the second some definitions are the values that the first ones come to, in every round: the same outcome, code or failure; needed: no value is the name of an alias before it, and the value is read as what it was |
| C109 | Macro, Interpreter | one use applied to what another generated, in either order: the same pieces of code, one for every two rounds; the same code if one has no loops; needed: values, aliases and strings that the other use does not touch |
| C110 | Macro, Env | `concat` of identifiers that differ in one place, or in two separated ones, composes different names; so a loop over different identifiers gives a name composed of its variable another value in each round, and two loops do with a separator between their variables; not with two variables side by side nor with case conversions |
| C111 | Values, Env, Macro | the conversions `to_..` may be repeated, those to paths, types, expressions and tokens may be left out before another one, and names come back from strings |
| C46, C47 | Resolve, Eval, substitution | logical relation between two programs that differ in leaves; settled calls may be inlined too; C46 refuted for other calls |

Expressibility: every property above is expressible on the executable model.
Compile-time performance other than the counts of C52 and C76 and rustc's own behaviour
on the emitted tokens are not modelled.

## Files

| model | of | specification | proofs | properties |
|-------|----|---------------|--------|------------|
| CrossProduct, Tuple, Expand | util/cross_product.rs, ast/tuple.rs, expand/raw_ast.rs | SpecProduct, SpecTuple | CrossProductProofs, ExpandProofs, LoopFacts | PropertiesLoops (C01-C05) |
| Types, Values, Ast, Env | core/type_.rs, parse/type_.rs, ast/*.rs, core/environment/*.rs, funcs.rs | SpecTypes | TypesProofs, BuiltinFacts | PropertiesTypes (C11, C38, C40) |
| Resolve, Eval | resolve/*.rs, eval/*.rs | SpecElab, SpecScope, SpecPrograms, SpecCalls, SpecNaming, SpecFunctions | ElabProofs, ElabFacts, CallFacts, MoreCallFacts, ResolveFacts, NamingProofs, SettledProofs, FunctionProofs | PropertiesResolve, PropertiesCalls (C06-C10, C12-C14, C35, C36), PropertiesNaming (C46, C47), PropertiesFunctions (C48) |
| Resolve, Eval | the same, nested calls | SpecNesting | NestingProofs, NestingRuns, NestingLaws | PropertiesNesting (C70) |
| Costs, CostMacro, Work | resolve/*.rs (and interpreter/core.rs, lib.rs) again, with 32-bit costs and with a counter | SpecCosts, SpecWork, SpecSize | CostProofs, WorkProofs, SizeProofs, CostUseProofs | PropertiesCosts (C51), PropertiesWork (C52) |
| SubstituteLog | substitute_idents.rs, alias_substitution_visitor.rs again, with a log of what is parsed | SpecSubstWork | SubstituteLogProofs | PropertiesSubstWork (C76) |
| RustText | funcs.rs `hash` with std's `DefaultHasher` | SpecHash | HashProofs | PropertiesHash (C77) |
| Env, Eval, Macro | how large values and code get | SpecGrowth | GrowthProofs, DoublingProofs, GrowthInstance, RustModest | PropertiesGrowth (C78) |
| ParseWork | parse/*.rs, util/terminated.rs again, with a count of the rounds of attempts | SpecSize | ParseWorkProofs | PropertiesParseWork (C79) |
| Parse, Eval, Macro | where identifiers come from | SpecOrigins | OriginProofs, RustOrigins | PropertiesOrigins (C80) |
| SpanVisitor, SpanItem, SpanDeprecation, SpanMacro, SpanDress | spans of the generated code | SpecSpanCode | SpanCodeProofs, SpanCodeMacroProofs, SpanDressPrint | PropertiesSpanCode (C81) |
| RustText | heck as funcs.rs 8-30 uses it, on ASCII text | SpecCasing | CasingProofs, CasingLaws | PropertiesCasing (C74) |
| Env, Eval | raw identifiers as arguments | SpecRawNames | RawNameProofs | PropertiesRawNames (C75) |
| Messages | `Display` in ast/value.rs, ast/expr.rs, ast/call.rs; `signature`, `make_pretty_func_sig`; error.rs | SpecMessages | MessageProofs, MessageCalls | PropertiesMessages (C49, C50) |
| Normalize, FormatString | funcs.rs, substitution/format_string.rs | SpecNormalize, SpecFormat | NormalizeProofs, FormatProofs, TextFacts | PropertiesText (C15-C20) |
| StreamWalker, SubstituteIdents | substitution/stream_visitor.rs, substitute_idents.rs | SpecSubst | WalkerProofs, SubstFacts | PropertiesSubst (C21-C24) |
| Item, AliasSubstitution | syn's items as far as needed, substitution/alias_substitution_visitor.rs | SpecItem, SpecRespelled | VisitorProofs, VisitorTotal, RespelledProofs, ItemFacts | PropertiesItems (C25, C26) |
| Deprecation | util/deprecation.rs | SpecDeprecation | DeprecationProofs | PropertiesDeprecation (C27-C29) |
| Interpreter | interpreter/core.rs, lib.rs | SpecInterpreter | InterpreterProofs, RunFacts | PropertiesInterpreter (C33, C34) |
| TokenDistance, UniqueId | util/token_distance.rs, util/unique_id.rs, syn's cursors | SpecDistance | DistanceProofs | PropertiesDistance (C32, C39) |
| Parse | parse/*.rs, util/terminated.rs, util/combined.rs | SpecParse | ParseProofs, ParseIds, SeparatorProofs | PropertiesParse (C30, C31, C37) |
| Macro | lib.rs, from source tokens to output | SpecMacro, SpecOutcome, SpecRepro, SpecForms, SpecUnroll, SpecUnrollAll, SpecOrder | MacroProofs, MeaningProofs, OutcomeProofs, ReproProofs, FormProofs, UnrollProofs, UnrollAllProofs, OrderProofs | PropertiesMacro (C41-C43), PropertiesOutcome (C44), PropertiesRepro (C45), PropertiesForms (C53, C54), PropertiesUnroll (C55), PropertiesOrder (C66-C68) |
| Threads | lib.rs, util/unique_id.rs with several threads | SpecThreads | ThreadProofs | PropertiesThreads (C71) |
| Expand, Interpreter | the same, loops against loops | SpecLoops | LoopAlgebra | PropertiesLoopAlgebra (C72) |
| Macro, AliasSubstitution | one use in the block of another | SpecNested | NestedProofs | PropertiesNested (C73) |
| InvisibleParse, InvisibleMacro | parse/*.rs, lib.rs on input with invisible groups | SpecInvisible, SpecCursor | InvisibleProofs, InvisibleSame, InvisibleTop, InvisibleDistance | PropertiesInvisible (C69); instance in InvisibleInstance |
| InvisibleMacro, Interpreter | lib.rs, interpreter/core.rs on input with invisible groups | SpecInvisibleRun | InvisibleElab, InvisibleEmit, InvisibleStages, InvisibleRun | PropertiesInvisibleRun (C82) |
| AliasSubstitution, Parse | substitution/alias_substitution_visitor.rs, parse/alias.rs, loop_alias.rs for aliases named like keywords | SpecKeywords | KeywordsProofs | PropertiesKeywords (C83) |
| SpanVisitor, SpanMacro | the same, with the spans of the keywords | SpecSpanKeywords | SpanKeywordsProofs | PropertiesSpanKeywords (C83) |
| Parse | parse/*.rs | SpecGrammar | GrammarProofs | PropertiesGrammar (C59) |
| SpanTokens, SpanWalker, SpanValues, SpanEval | substitution/stream_visitor.rs, substitute_idents.rs, ast/value.rs, core/environment/init_funcs.rs, eval/*.rs, resolve/*.rs, error.rs, again with spans | SpecSpans, SpecSpanEval | SpanProofs, SpanEvalProofs | PropertiesSpans (C56-C58); instance in SpanInstance |
| Failures (and the Span files) | error.rs, ast/value.rs, core/type_.rs | SpecSpanEval | FailureProofs, BuiltinCasts | PropertiesFailures (C60) |
| SpanParse, SpanExpand, SpanItem, SpanVisitor, SpanDeprecation, SpanMacro | parse/*.rs, expand/raw_ast.rs, alias_substitution_visitor.rs, util/deprecation.rs, interpreter/core.rs, lib.rs, again with spans and the messages of `syn::Error` | SpecSpanItem, SpecSpanMacro | SpanParseProofs, SpanExpandProofs, SpanItemProofs, SpanDeprecationProofs, SpanMacroProofs, SpanPlaces | PropertiesPlaces (C61, C62); instance in SpanDress, SpanDressProofs, SpanRust |
| SpanParse, SpanMacro | the same | SpecSyntaxErrors | SyntaxErrorProofs | PropertiesSyntaxErrors (C63) |
| SpanParse | parse/*.rs with spans | SpecSpanGrammar | SpanGrammarProofs, SpanGrammarExact | PropertiesSpanGrammar (C84) |
| SpanInvisible, SpanInvisibleMacro | parse/*.rs, lib.rs with spans on input with invisible groups | SpecSpanMacro, SpecInvisible | SpanInvisibleProofs, InvisibleIds, SpanInvisibleRun, SpanInvisibleVisible | PropertiesSpanInvisible (C86); instance in SpanInvisibleInstance |
| (the same, next to SpanParse) | the same | SpecSpanInvisible, SpecInvisible | SpanInvisibleSame, SpanThrough | PropertiesSpanThrough (C87) |
| (the same, as a whole) | lib.rs, interpreter/core.rs with spans | SpecSpanInvisible, SpecSpanKeywords, SpecReports | SpanThroughRun | PropertiesSpanThroughCode (C88) |
| SpanParse, SpanEval, SpanVisitor, SpanExpand, SpanMacro | the same, on input whose spans are replaced | SpecSpanShift | SpanShiftEval, SpanShiftParse, SpanShiftItem, SpanShiftMacro | PropertiesShift (C89); instance in SpanShiftInstance |
| SpanInvisible, SpanInvisibleMacro | the same, with invisible groups and replaced spans | SpecSpanShift | SpanShiftThrough, SpanShiftThroughMacro | PropertiesShiftThrough (C90, C89_among_others) |
| SubstituteIdents, AliasSubstitution, Deprecation, Interpreter, Macro | identifiers of the item that are no aliases and literals that are no strings, renamed | SpecRename | RenameWalk, RenameItem, RenameMacro; RustRename, RustRenameLaws for the grammar | PropertiesRename (C91) |
| Parse, Env, Resolve, Eval, Interpreter, Macro | functions that a use does not name | SpecExtend | ExtendParse, ExtendProofs; ConcreteExtend for the example | PropertiesExtend (C92) |
| Env, Resolve, Eval, Macro | overloads that take another number of arguments | SpecOverload | OverloadProofs | PropertiesOverload (C93) |
| Env, Resolve, Eval, Macro | overloads that are not taken | SpecChoice | ChoiceProofs | PropertiesChoice (C94) |
| FormatString, SubstituteIdents | what strings show of values | SpecShown | ShownProofs | PropertiesShown (C95) |
| Resolve, Eval | normalize and normalize2 | SpecNormalizeCalls | NormalizeCallProofs | PropertiesNormalizeCalls (C96) |
| Parse, Deprecation | migration to commas | SpecMigration | MigrationProofs | PropertiesMigration (C97) |
| Parse, AliasSubstitution | the old bracket form | SpecBrackets | BracketProofs, RustSignature | PropertiesBrackets (C98) |
| FormatString | writing of texts with values | SpecEscape | EscapeProofs | PropertiesEscape (C99) |
| AliasSubstitution | putting in again what came out | SpecItem, SpecRespelled | AgainProofs | PropertiesAgain (C100) |
| Env, Eval, AliasSubstitution | strings and identifiers | SpecStrings | StringProofs, RustStrings, RustSignature | PropertiesStrings (C101) |
| Macro, AliasSubstitution | one attribute below another | SpecNested | NestedProofs | PropertiesStacked (C102) |
| Macro, Resolve, Eval, AliasSubstitution | uses that build on the values of the use around | SpecBuilding | BuildingProofs | PropertiesBuilding (C103) |
| Parse, Macro, AliasSubstitution | headers with other identifiers | SpecHeaders, SpecHeaderNames | HeaderProofs, HeaderUseProofs, RustHeaders | PropertiesHeaders (C104) |
| Parse, Macro, Elab, AliasSubstitution | other names for the aliases | SpecAlpha | AlphaProofs, RustAlpha | PropertiesAlpha (C105) |
| Parse, Macro, Elab, AliasSubstitution, Interpreter | failures under other names for the aliases | SpecAlphaOutcome | AlphaOutcomeProofs, RustAlphaOutcome | PropertiesAlphaOutcome (C106) |
| Parse, Macro, AliasSubstitution | aliases written out in the code | SpecWrittenOut | WrittenOutProofs | PropertiesWrittenOut (C107) |
| Parse, Macro, Elab | definitions replaced by their values | SpecComputed, SpecSpanComputed | ComputedProofs, SpanComputedProofs | PropertiesComputed (C108) |
| Macro, Interpreter | two uses in either order | SpecEitherOrder | EitherOrderProofs | PropertiesEitherOrder (C109) |
| Macro, Env | names composed in loops | SpecDistinct | DistinctProofs, RustDistinct | PropertiesDistinct (C110) |
| Values, Env, Macro | conversions one after the other | SpecConvertTwice | ConvertTwiceProofs, RustConvertTwice | PropertiesConvertTwice (C111) |
| HashMaps | eval/alias_spec*.rs, interpreter/core.rs 55-78, the order of iteration explicit | (in the statement) | HashMapsProofs | PropertiesHashMaps (C85) |
| SpanExpand, SpanVisitor, SpanMacro | the same | SpecSpanUnroll, SpecReports | SpanUnrollProofs, ReportProofs | PropertiesReports (C64, C65) |

Concrete.v and the other Concrete files are an ASCII
instance of the oracles, used for the examples beside the theorems and for the
witnesses of the `_refuted` theorems.  A witness shows what the model does for
*that* instance; each instance parser was written to behave like `syn` on the
tokens the witness uses, and that agreement is by reading.

## The repository's tests

The model runs: RustLexer, RustText, RustGrammar and RustInstance give the oracles
as the crates do for the programs at hand (a lexer, heck's word splitting,
SipHash-1-3 as in `DefaultHasher`, a grammar for the part of Rust the tests use).
On that instance the repository's tests are `Example`s decided by `vm_compute`:

| file | tests |
|------|-------|
| ConformanceInterpreter (58) | src/interpreter/test.rs and core.rs: inputs, expected output or error kind |
| ConformanceFuncs (99) | src/funcs.rs |
| ConformanceValues (79) | src/parse/value.rs: the type chosen, tokens read, tokens left |
| ConformanceSubstitutions (30) | alias_substitution_visitor.rs, substitute_idents.rs |
| ConformanceTexts (30) | format_string.rs, ast and type texts |
| ConformanceUnits | cross_product.rs, token_distance.rs, stream_visitor.rs |
| ConformanceMacros | tests/compile, tests/build.rs, snippets |
| ConformanceReadme | every row of the README's tables of functions and types |
| Findings | the findings below, on programs |

The first five are generated by `tools/conformance.py` from the test sources.
All pass without a change to the model; the README's rows of `to_path` and
`to_type` do not hold (C14), and its example of a `type`, `Result<u32, Error>`, is
a path, as the test at parse/value.rs 141-146 says too.  The example expansion of
`hash` in the documentation is the model's output for the seeds 1 and 2.
The places and texts of the macro's own errors in `.stderr` files are examples in
PropertiesPlaces.v.
Not reproduced: in `.stderr` files what rustc itself says and syn's reason in error_reporting.stderr.
The instance is not trusted for the property theorems, which quantify over all
oracles; a wrong instance could only make an example mean less.

## Oracles and the laws assumed of them

No law is an axiom: a theorem that needs one has it as a hypothesis, and the
concrete instance satisfies it (shown by examples).  The instance of the Rust
files satisfies `faithful`, `covers`, `within`, `printing`, `braced` and, for every
kind of node, `ignores_strings`: proved in RustLaws.v, with RustBlind.v showing that
the grammar never looks into a string literal.

* `oracles` (Values.v): whole-stream parsers, printing, case conversion,
  character classes, hashing.  Most theorems hold for every instance.  Laws used
  by single theorems: a parser accepts what it printed, an identifier reads back,
  an identifier is a type and an expression (each by one theorem of C40); only
  string literals are read as strings (C22, C24); they enlarge what they are given by a
  factor only (`modest`, C78, proved of both instances); they and the `parsers` put no identifier into a node
  that was not in the tokens (`keeps_names`, C80, proved of both instances).  With spans, `sfaithful` and
  `scovers` (C81, proved of both instances from the laws without spans).
* `syntax` (Interpreter.v): `reparse` of a node kind and `as_forest`, syn's
  traversal of a block.  Laws: `faithful` (SpecItem.v: a node prints what it was
  parsed from), `covers` (SpecDeprecation.v: the traversal sees all tokens).
* `parsers` (Parse.v): syn's prefix parsers with the number of token trees they
  consume and the "unexpected" flag of `ParseBuffer`.  Laws: they consume no more
  than there is (`within`); they do not look behind a comma (`stops`, for the
  header at hand) and blocks are groups of braces (`braced`), both for C53; they read
  through invisible groups (`transparent_at`, for the positions of the input at hand), for
  C69.  The latter is not true of syn everywhere: a group of more than one token binds
  tighter in an expression or is a type by itself, which can matter where the group is
  followed by more tokens.  C69_visible needs no law.
* `sees_through O Y D` (C82): the parsers, printers and the traversal of syn do with a stream
  of `D` what they do with it without invisible groups.  As for C69 this is not true of syn for
  all streams, which is why the claim is relative to a set `D` that what was parsed has to be
  in; it is proved of two instances made of any faithful functions, with all streams in `D`.
  C82_blind_refuted: it does not follow from the laws of C69.

* `soracles` (SpanValues.v): the whole-stream parsers on tokens with spans, `Span::join`,
  the span and the text of a syn error.  Laws: `spanless` (parsers do not look at spans) and
  `inherited` (a node has the spans of its tokens or `call_site`); SpanInstance.v makes
  an instance with both laws from any `oracles`.  `inherited` is about compilers
  where `Span::join` does nothing: elsewhere syn joins the spans of the sign and the digits of a
  negative literal.  (`inherited_parsers` allows for joined spans.)

* `sparsers` (SpanParse.v): the prefix parsers on tokens with spans, what they say of a
  token left unread inside a group, and the error of `Block::parse`; `ssyntax`
  (SpanMacro.v): `reparse` and `as_forest` with spans.  Laws: `spanless_parsers`,
  `spanless_syntax`, `inherited_parsers`, `inherited_syntax`, as above; `inherited_names`
  (SpecReports.v): the identifiers of a reparsed block keep their places or get `call_site`.  SpanDress.v makes
  instances from any plain ones by giving the tokens of a node, in order, the spans of
  the tokens it was parsed from; SpanDressProofs.v proves the laws.
  `moving` (SpecSpanShift.v, C89, C90): given tokens with replaced spans they parse the same things
  with the spans replaced and say the same; of `Span::join` it is asked of the span used, the
  first if there is no joined one.  SpanShiftInstance.v proves it of the instances,
  SpanShiftThroughMacro.v of those that read through invisible groups.
* `fn_is_named`, `reserves_fn` (SpecBrackets.v, C98): in a signature `fn` is not followed by a
  bracket, and `fn` and what may stand before it are not read as names; RustSignature.v proves
  both of the Rust instance.
* `names_print`, `quotes_end_names`, `fn_takes_name` (SpecStrings.v, C101): a name is printed as it is,
  names followed by a quotation mark are not read as one name, and in a signature `fn` is not
  followed by a literal; RustStrings.v and RustSignature.v prove this for the Rust instance.
* `words_read` (SpecDistinct.v, C110, which also asks `names_print`): text made of ASCII identifier
  characters is read by `syn::parse_str::<Ident>`, if at all, as the identifier written there;
  RustDistinct.v proves it of the Rust instance.
* `rereads`, `prints_read` (SpecConvertTwice.v, C111): what `Ident`, `LitStr`, `LitInt`, `Path`, `Type` and
  `Expr` read is read as the same when printed, names and strings are not taken for each other, and
  without invisible groups paths, types and expressions print the tokens they were read from;
  RustConvertTwice.v proves both of the Rust instance.
* `renames` (SpecRename.v, C91): given tokens with identifiers, and literals other than
  strings, renamed, `Ident`, the reparsed nodes, `Block` and the traversal of the deprecation
  service make the same things, renamed.  RustRenameLaws.v proves it of the Rust instance for
  every injective renaming that spares the words of the grammar and strings.
* `reads_alike` (SpecHeaders.v, C104): `Ident`, `LitInt`, `LitStr`, `Path`, `Type` and `Expr` at the
  head of tokens with renamed identifiers read as much as before, with the other identifiers.
  RustHeaders.v proves it of the Rust instance for every renaming, injective or not, that
  spares the words of the grammar and the literals.
* The texts and places of the errors that the macro's parsers get from syn's primitives
  (`Ident`, `Token![..]`, `parenthesized!`, `bracketed!`, `ParseBuffer::error`, the check
  for leftover tokens) are written down in SpanParse.v from syn 2's source as known, not
  from /repo: they are trusted.
  So are, in SpanInvisible.v, the places of these errors where an invisible group is ahead
  (its opening, but the character itself where another one was expected and the token itself
  where one is left over).

`vcheck` lists axioms of the standard library's `ssr` modules as loaded; no
theorem uses them: every `Print Assumptions` says "Closed under the global
context".

## Not modelled

What syn says when a block or a substituted node does not parse; the texts of internal errors; `Debug`
output and logging; literals other
than strings and integers beyond their text; `u32` costs except in Costs.v and CostMacro.v (the
model of the whole macro computes them exactly; C51 says when that is the same);
the order of `HashMap` iteration except in HashMaps.v (C85: it is not observable).

## Findings

What the model says about the code where it differs from what one would expect
(documentation, names, comments).  References are to theorems where one states it.

Loops and definitions

* Tuples of different shape are accepted when their level-order kinds agree:
  `for ((a), b) in [((1, 2))]` (C05).
* Expansion of all combinations comes before resolution of the first, so a tuple
  mismatch in a later combination hides an earlier resolve error (C33); likewise
  all definitions are resolved before one is evaluated.
* A loop is not shorthand for repeating what follows it: of several loops no single one
  can be unrolled in the text, only all of them at once (C55).
* In `compose!` definitions without any separator cannot be followed by the block, so that
  the separator behind the block is never compared with `is_comma_used() == None`
  (raw_ast.rs 41-45; `unseparated_at_end` in GrammarProofs).

Resolution and functions

* `to_path(concat(std, ::, vec))` and `to_type(concat(Vec, <, u32, >))`, both in
  the README, are evaluation errors: the overload `concat(ident, tokens...)` wins (C14).
* `concat(1, -2)` panics in `LitInt::new`.  `Ident::new` panics for results that
  are no identifiers: raw identifiers in `concat`/`upper`/`lower`,
  `snake_case(_)`, `pascal_case(_1)`.
* `to_ident("-")` is a type error although the resolver accepted it.
* A coercion to `raw` costs 5, which the README's table does not mention.
* At equal length literals are preferred to identifiers, paths, types and expressions (C31);
  adr/0000-type-system.md lines 150-158 has them after expressions, which would make every
  literal an expression.
* Naming a call can change what it means: `b = concat(x, hash("s"))` composes an
  identifier, `h = hash("s"), b = concat(x, h)` is an evaluation error (C46).
* Conversions inside the first argument of `concat` count twice in the cost of the overload
  for identifiers and once in that of an identifier and tokens.  `concat(concat(w,
  to_path(hil)), e)` therefore takes the latter, which rejects keywords, and is an error;
  with the inner call named it composes `while` (C70).
* Hashes depend on how many ids were drawn before, so another macro use in front
  changes the identifiers composed with `hash` (C45).  If macros were expanded by several
  threads, such identifiers would differ from one compilation to the next (C71).
* A call inside a call is never blamed: `upper(concat(lower(1)))` is reported as a
  wrong call of `upper` (C49).  The quoted call is printed from the parsed
  arguments, without escapes in strings, and as `f()` when they did not parse (C50).
* Parsing is linear where resolution is not: nothing is parsed again at the next level (C79).
* Overload resolution tries every overload of every argument again for each
  overload of the call, so its work is exponential in the nesting depth (C52).
* Costs are `u32` and double with every variadic call: `concat` nested thirty deep
  around a path panics in a debug build of the macro, and in a release build costs
  can wrap around so that another overload is chosen (C51).  This takes quadratic,
  not exponential work.
* Names can double with every definition, so `n` short definitions compose a name of `2^n`
  letters; nothing in the macro limits this (C78).

Text

* `normalize("a__")` is `a_`, so normalize is not idempotent (C17).  Its character
  test is `is_alphanumeric`, which is not the test for identifier characters.
* A run of n percent signs becomes n-1 (C20).  So any text can be written, by one sign more
  in each run; but two values cannot be written next to each other, nor a value right after
  a percent sign: no string says `%` and then the value of `a` (C99).
* In strings paths are shown by their names only: `"%t%"` is `Vec` for `t = Vec<u8>`, for
  `Vec<u16>` and for `::Vec<u8>`, while `&Vec<u8>` is shown in full (C95).

Substitution

* where clauses of structs, enums, unions, traits and impls are dropped (C25).
* Inner attributes in the bodies of functions, modules, impls, traits and foreign
  modules make the macro panic (C25).
* String literals are respelled by `LitStr::new`: raw strings and suffixes (C25).
* An alias `a` also replaces the identifier of the lifetime `'a`.
* Contextual keywords (`union`, `auto`, `default`) used as alias names are not
  replaced in keyword position (C83).
* The walker diverges for visitors that replace a group on entering it (C23).
* When formatting a string makes the code unparseable the error blames the
  identifier replaced last, or the macro panics if there is none (C24).
* Every string literal is replaced, by itself if need be, and every replacement parses the
  whole statement again: a statement of n strings is parsed n + 2 times, aliases or not (C76).

Invisible groups

* A comma inside the group of a `macro_rules!` fragment does not end an argument of a call:
  `$t:ty` for `HashMap<K, V>` is one argument, the same tokens written out are two (C69).
* An empty fragment (`$v:vis` without `pub`) behind the last comma of a list is one more
  value, so a loop has one more round (C69).
* `$t:ty` for a tuple type `(A, B)` as a value of a loop is taken for a tuple of values, so
  that `for t in [$t]` is an error while `t = $t` is not (Findings.v).

Spans

* Every group in a visited node comes back with both delimiters at the span of the
  whole group, touched or not (C56).
* `concat` of an identifier and tokens, and every conversion of a string to an
  identifier, goes through `syn::parse_str`, so the identifier has the span
  `call_site`; `concat` of identifiers has the span of the function's name, `upper`
  and the like that of the argument (C57).  An error in code that uses such a name,
  reported by rustc, thus points to the whole macro.
* A name defined twice is reported at the second definition's value, not at the name
  (resolve/alias_spec_item.rs passes the value's expression) (C58).
* A failed conversion names types by their `Debug` names (`LitStr`), a wrong call by
  those of the documentation (`str`).  A string that is no identifier is reported at no
  place at all, and always as a string, also if it came as tokens (C60).
* The only conversions that can fail are those of the functions `to_*`: no cast that
  overload resolution inserts ever does (C60).
* Mixed separators are reported at the token after the offending separator; at the end of
  the input as `unexpected end of input, Mixing ...` at the whole macro (C62).
* A malformed tuple pattern is reported by what is wrong with it and, after that, by
  `expected identifier` at its opening parenthesis, although tuples are accepted there (C63).
* A value that is no call is never followed by the wrong thing, since tokens are values: of
  `a = x y, {..}` nothing is said, of `a = upper(x) y, {..}` three messages (C63).
* All values of all loops are matched with their patterns before anything is generated, and
  the first misfit alone is reported, at the value; a failing definition of a round is only
  reported if the rounds before it succeed (C64, C65).
* A value of a loop that cannot stand where its alias is used is reported in the block, with
  its text but not the place of the value in the list: of `for a in [x, 1] {..}` the error is
  at the `a` in the block (C65).
* Tuples of different numbers of elements are told apart from tuples of different shapes by
  the number of *nodes*, subtuples included: `(a, b)` and `(z, (w, v))` are said to differ in
  the number of elements although both have two (C64).
* Three errors of the parser cannot be reached: `Expected "," or ";"` (alias_spec.rs 28),
  `Failed to parse any loops` (loop_spec.rs 16) and the error of a value (some kind of
  value always parses).

Deprecation

* The prefix of the first macro used in a thread sticks (C29).

Parser

* Values end at commas only: `a = x; b = y; {..}` is a syntax error, in
  `#[compose_item]` it binds `a` to the tokens `x; b = y` (C30), so the advice of the README's
  migration guide holds of calls and not of plain values (C97).
* The bracket form of definitions, whose support was removed in v0.2.2 according to the README,
  is not refused: `MY_CONST = [upper(baz)]` is accepted as the array `[upper(baz)]`, which is
  noticed only where `MY_CONST` is used as a name (C98).
* `#[compose_item]` accepts a list that ends in both separators (C30), or in the
  same one twice (C53).
* Arguments that do not parse silently become no arguments; an empty argument as
  in `concat(a,,b)` is an empty token sequence.
* A generic type such as `Result<u32, Error>` has the type `path`, not `type` as the
  README's table says; so `to_type` is needed where a `type` is asked for.
* An alias that stands for an expression is replaced by bare tokens: with `s = 1 + 2`, the code
  `s * n` becomes `1 + 2 * n` (C107_example).
* Parenthesised expressions such as `(x * 2)` are taken for a type, and the macro
  rejects the tokens left unread (C31).
* `Type`'s parser does not know `expr` and `raw`, and syn refuses the keyword `type` (C38).
* `token_distance` from inside a group to a position outside stops at the end of
  the group; no caller does this (C32).
* `CrossProduct::reset` with no sources makes the iterator yield one empty
  combination while `size_hint` is 0; `reset` is not called.
* A use in the block of another sees the block after the outer aliases were put in:
  also in its own header, where even the names of functions are replaced, and in its
  strings, where `%%x%%` has become `%x%` and is then a placeholder (C73).  The same
  goes for an attribute below another (C102).  A loop of the inner use may name a definition of
  the outer one, which a loop beside the definition cannot, and `normalize` and `raw` get its value
  instead of its name (C103).  Expressions that are more than a name, such as `a + 1`, are taken as
  they are beside the definition of `a`, but not below it (C104).
* The name of an alias matters in four places: where it is mentioned before its definition (it stands for
  itself), inside an expression that is more than a name, among tokens given to `normalize` or `raw`, and
  in placeholders.  Everywhere else aliases may be renamed freely (C105).
* Raw identifiers are accepted as values, but `upper(r#type)`, `lower(r#type)` and
  `concat(x, r#type)` panic: the functions work on the text `r#type`, and `Ident::new`
  refuses `#`.  `snake_case(r#type)` is `r_type`, `pascal_case(r#type)` is `RType`.  With an
  argument that is not an identifier, `concat(r#ty, 1)` is `r#ty1` (C75).
* `snake_case(_1x)` and `snake_case(__)` panic, as do the other two conversions: nothing
  that can begin an identifier is left (C74).  `pascal_case` and `camel_case` are not
  idempotent: `pascal_case(a_b)` is `AB`, `pascal_case(AB)` is `Ab`.
* `concat(x, "1")` is an error since strings and identifiers are not interchangeable (CHANGELOG,
  v0.3.0), and `to_ident("1")`, which is advised there, is one too; `concat(x, 1)` is `x1` (C101).
* `normalize` does not look at aliases, as documented; the example of `adr/0001`, which
  calls it with a loop variable, makes the same name in every round (C96).  `normalize` and
  `normalize2` treat strings and integers differently: `normalize("get_")` is `get_`,
  `normalize2("get_")` is `get`; `normalize(1u8)` is `_1u8`, `normalize2(1u8)` is `_1`.  "Any
  value could be converted to valid identifiers" (README) is not so: `normalize(+)` is `_`
  and `normalize(&mut)` is `mut`.
