{"id": "C01", "title": "Loops expand to the full Cartesian product in nested-loop order", "statement": "A `compose!` invocation with loops `for x1 in L1 ... for xk in Lk` emits its block exactly once for every tuple of L1 x ... x Lk, in the order of k nested `for` loops (first loop slowest, last loop fastest), and stops after the last tuple.", "quantifier": "for every number of loops and every (non-empty or empty) list of values per loop", "why_tests_cant": "Tests fix two or three loops of two or three values; the carry logic of the index odometer has to be right for every number of sources and every length.", "anchors": ["src/util/cross_product.rs: from_vecs, current_combination, advance_indices, next", "src/expand/raw_ast.rs: expand"]}
{"id": "C02", "title": "A loop over an empty list emits nothing; no loop emits the block once", "statement": "If any loop of the invocation ranges over an empty list the macro succeeds and emits no tokens; an invocation without loops emits its block exactly once, even when it has no aliases.", "quantifier": "for every position of the empty list and every other list", "why_tests_cant": "Depends on the interaction of the exhausted flag with every position of the empty source, not just the one in the test.", "anchors": ["src/util/cross_product.rs: from_vecs, has_empty_source", "src/expand/raw_ast.rs: expand"]}
{"id": "C03", "title": "The product iterator's size hint is exact at every point", "statement": "At every moment of the iteration the size hint of the cross-product iterator is (n, Some(n)) where n is the number of combinations that are still going to be produced, as long as the total fits in usize; otherwise the upper bound is absent and the lower bound is still not larger than the truth.", "quantifier": "for every list of sources and every number of items already taken", "why_tests_cant": "The hint is a mixed-radix subtraction; tests look at it in a handful of states.", "anchors": ["src/util/cross_product.rs: size_hint, total_combinations, next, reset"]}
{"id": "C04", "title": "Loop tuples of equal shape bind position by position", "statement": "When a loop's alias tuple and a value tuple have the same nested shape, every alias of the tuple is bound to exactly the value at the same path of the value tuple, and nothing else is bound.", "quantifier": "for every nesting depth and width of tuples", "why_tests_cant": "Both sides are flattened breadth-first by separate queue loops; that the two flattenings stay aligned for every shape is an inductive fact.", "anchors": ["src/ast/tuple.rs: iter_recursive, iter_destructuring", "src/expand/raw_ast.rs: make_spec_items, match_tuples"]}
{"id": "C05", "title": "Loop tuples of different shape are rejected", "statement": "A loop whose alias tuple and value tuple have different nested shapes is rejected with a type error instead of binding aliases to values of a different position.", "quantifier": "for every pair of tuples", "why_tests_cant": "A counterexample needs two shapes whose breadth-first kind sequences coincide; the test-suite's mismatches do not.", "anchors": ["src/expand/raw_ast.rs: match_tuples, make_spec_items", "src/ast/tuple.rs: iter_destructuring"]}
{"id": "C06", "title": "Duplicate alias names are rejected, distinct ones never", "statement": "Within one combination (all loop aliases plus all spec aliases) the macro reports a redefinition error exactly when some alias name occurs twice and everything before it resolved; a list of pairwise distinct names never yields a redefinition error.", "quantifier": "for every alias list, including names coming from different loops and from the spec", "why_tests_cant": "Quantifies over every list and every position of the duplicate, including cross loop/spec duplicates.", "anchors": ["src/resolve/core.rs: try_add_name", "src/resolve/alias_spec.rs", "src/resolve/alias_spec_item.rs", "src/expand/raw_ast.rs: expand"]}
{"id": "C07", "title": "Aliases are visible in later definitions only", "statement": "The value of an alias depends only on the definitions before it: appending, removing or changing later definitions never changes the value of an earlier alias, and an identifier that equals a later alias's name (or its own) is an ordinary identifier.", "quantifier": "for every alias list and every split into prefix and suffix", "why_tests_cant": "Non-interference between a prefix and all possible suffixes is a two-run property over unboundedly many programs.", "anchors": ["src/resolve/alias_spec_item.rs: resolve", "src/eval/alias_spec.rs: eval", "src/eval/value.rs: eval", "README.md: alias re-use"]}
{"id": "C08", "title": "Overload resolution picks the unique cheapest overload", "statement": "For a call, the selected overload is the one with the least (cost, variadic-ness, number of parameters, declaration order) among all overloads that accept the arguments; the choice does not depend on the order in which candidates are tried, and it fails with a signature error exactly when no overload accepts the arguments.", "quantifier": "for every function table and every argument list, nested calls included", "why_tests_cant": "Universally quantifies over tables, permutations of candidates and nested argument expressions.", "anchors": ["src/resolve/call.rs: Call::resolve, resolve_call_for_func, resolve_arg", "src/core/type_.rs: coercion_cost"]}
{"id": "C09", "title": "The selected overload is stable across macro invocations", "statement": "Two invocations with the same input select the same overloads and produce the same values although the overloads' unique ids differ between them (only the hash seed may change results).", "quantifier": "for every two environments whose tables differ only by an order-preserving renumbering of ids", "why_tests_cant": "Ids come from a process-wide counter; tests run with whatever ids they happen to get.", "anchors": ["src/core/environment/core.rs", "src/core/type_.rs: Func::new, id", "src/util/unique_id.rs", "src/resolve/call.rs: Call::resolve"]}
{"id": "C10", "title": "Overload choice depends on types only", "statement": "Replacing argument values by other values of the same type (and aliases by aliases of the same type) changes neither the chosen overloads nor the costs nor whether resolution succeeds; the chosen coercion for every argument is the documented one.", "quantifier": "for every expression and every type-preserving replacement of its leaves", "why_tests_cant": "A parametricity-like two-run statement over all expressions.", "anchors": ["src/resolve/value.rs: resolve", "src/resolve/call.rs", "README.md: Types"]}
{"id": "C11", "title": "Implicit coercions form a consistent order", "statement": "The documented coercion table is exactly the implemented one: every type coerces to itself at cost 0, ident coerces to path/type/expr with growing cost, every type coerces to tokens and raw, nothing else coerces; chaining coercions never reaches a type that direct coercion does not, and never at a lower cost.", "quantifier": "for every pair and triple of types, variadic types included", "why_tests_cant": "It is a law over all pairs/triples; the tests check a few pairs.", "anchors": ["src/core/type_.rs: coercion_cost, coercion_cost_basic"]}
{"id": "C12", "title": "Well-typed alias definitions evaluate without internal errors or coercion panics", "statement": "If resolution of the alias definitions succeeds, evaluation never hits the internal 'metadata not found' error, an argument-type panic, or the 'Unexpected coercion error' panic; the only failures are explicit evaluation/type errors of concat and the to_* functions and identifier construction from non-identifier text.", "quantifier": "for every alias list over the built-in function table, every nesting of calls, every behaviour of the external parsers that respects identifiers", "why_tests_cant": "Type soundness: relates two phases communicating through id-keyed side tables; quantifies over all programs.", "anchors": ["src/resolve", "src/eval", "src/core/environment/init_funcs.rs", "src/ast/value.rs: try_cast"]}
{"id": "C13", "title": "concat chooses its overload by the documented rule", "statement": "At top level concat of only identifiers gives an identifier, of only strings a string, of only integers an integer, of an identifier followed by anything else (not only identifiers) an identifier, and everything else tokens; concat without arguments is a signature error.", "quantifier": "for every argument list of plain values of every length", "why_tests_cant": "Costs grow with the number of arguments, so the decision must be shown for all lengths, not for the tested ones.", "anchors": ["src/core/environment/init_funcs.rs: concat", "src/resolve/call.rs", "README.md: function table"]}
{"id": "C14", "title": "The documented conversions of composed tokens work", "statement": "`to_path(concat(a, ::, b))` evaluates to the path `a::b`, and `to_type(concat(T, <, u, >))` to the type `T<u>`, as the README's function table shows.", "quantifier": "for all identifiers a, b, T, u", "why_tests_cant": "The table rows are not doctests, and the outcome depends on a cost comparison between two overloads of concat under an expected type.", "anchors": ["README.md: Functions table", "src/resolve/call.rs", "src/core/environment/init_funcs.rs: concat, to_path, to_type"]}
{"id": "C15", "title": "normalize yields a well-formed identifier", "statement": "The text computed by normalize is never empty, consists only of alphanumeric characters and underscores, and does not start with a digit; it ends with an underscore only if it is a lone underscore or the input contained two or more trailing non-alphanumeric characters.", "quantifier": "for every string over any alphabet", "why_tests_cant": "Character-by-character state machine with look-behind and a final fix-up; all strings must be covered.", "anchors": ["src/funcs.rs: normalize", "src/core/environment/init_funcs.rs: normalize, normalize2"]}
{"id": "C16", "title": "normalize preserves the alphanumeric content", "statement": "Removing everything that is not alphanumeric from normalize(s) and from s gives the same string, and normalize leaves strings that are already identifiers without leading or trailing underscores unchanged.", "quantifier": "for every string", "why_tests_cant": "Universally quantified over strings; tests sample.", "anchors": ["src/funcs.rs: normalize"]}
{"id": "C17", "title": "normalize strips surrounding underscores and is idempotent", "statement": "normalize(s) has no leading underscore (unless needed before a digit) and no trailing underscore, and normalize(normalize(s)) = normalize(s).", "quantifier": "for every string", "why_tests_cant": "A counterexample needs two trailing separators, which the tests do not contain.", "anchors": ["src/funcs.rs: normalize", "README.md: normalize"]}
{"id": "C18", "title": "String literals without placeholders are unchanged", "statement": "Formatting a string that contains no percent sign returns it unchanged; a string with exactly one percent sign is unchanged too, and text after an unterminated placeholder is kept verbatim.", "quantifier": "for every string and every set of aliases", "why_tests_cant": "All strings, all alias sets.", "anchors": ["src/substitution/format_string.rs: format_string"]}
{"id": "C19", "title": "Placeholders are replaced by the alias value, unknown ones kept verbatim", "statement": "In a string made of percent-free text pieces and placeholders %name% separated by at least one character of text, each placeholder whose whitespace-stripped name is an alias is replaced by that alias's text, each other placeholder is kept character for character, the text pieces are kept verbatim, and inserted text is never scanned for further placeholders.", "quantifier": "for every such string and every alias set", "why_tests_cant": "Compositional statement over arbitrarily many pieces.", "anchors": ["src/substitution/format_string.rs: format_string, format_value"]}
{"id": "C20", "title": "Doubled percent signs are an escape for one percent sign", "statement": "Every `%%` in a string literal denotes a single `%`, independently of what surrounds it, and adjacent placeholders `%a%%b%` are replaced by both values.", "quantifier": "for every string", "why_tests_cant": "The state machine looks at the previous character only; runs of percent signs and adjacent placeholders are not in the tests.", "anchors": ["src/substitution/format_string.rs: format_string", "CHANGELOG.md"]}
{"id": "C21", "title": "Identifier substitution replaces exactly the alias occurrences", "statement": "Within a token stream, substitution replaces every identifier that names an alias, at every nesting depth, by the alias's tokens and leaves every other token, the order and the delimiters unchanged.", "quantifier": "for every token stream, nesting depth and alias set", "why_tests_cant": "The walker is an explicit-stack cursor machine with index corrections after insertion and removal; only induction covers all streams.", "anchors": ["src/substitution/stream_visitor.rs: walk, VisitorCtx", "src/substitution/substitute_idents.rs: visit_ident, visit_literal"]}
{"id": "C22", "title": "Substitution is simultaneous", "statement": "Tokens inserted for an alias are not substituted again, even if they contain other aliases' names or the alias itself; swapping two names through two aliases works.", "quantifier": "for every alias set, including cyclic ones, and every stream", "why_tests_cant": "Needs the cursor to skip exactly the inserted tokens for every replacement length.", "anchors": ["src/substitution/stream_visitor.rs: replace_current_token, advance, walk"]}
{"id": "C23", "title": "Substitution terminates on every stream", "statement": "The walker stops for every token stream and every visitor that replaces/removes/keeps tokens, in a number of steps linear in the size of the input plus that of the inserted tokens.", "quantifier": "for every stream and every (even adversarial) sequence of replacements, including empty ones", "why_tests_cant": "Termination over an explicit stack with in-place growth cannot be tested.", "anchors": ["src/substitution/stream_visitor.rs: walk"]}
{"id": "C24", "title": "Substitution reports the first point where the code stops being syntactically valid", "statement": "If substituting makes the stream unparseable at some replacement the macro reports a substitution error for that alias and emits nothing; if no intermediate stream is unparseable the result is the fully substituted stream and no panic occurs.", "quantifier": "for every stream, alias set and parser", "why_tests_cant": "Relates all intermediate streams of the walk to the outcome.", "anchors": ["src/substitution/substitute_idents.rs: after_replace, substitute_idents"]}
{"id": "C25", "title": "Code that mentions no alias is emitted unchanged", "statement": "Items in the block that contain no alias name and no percent sign in string literals are emitted exactly as written, including generics, where clauses, attributes and bodies.", "quantifier": "for every block of items", "why_tests_cant": "The AST visitor re-assembles each item from separately re-parsed fragments; a fragment forgotten for one item kind only shows up with items that use it.", "anchors": ["src/substitution/alias_substitution_visitor.rs", "src/interpreter/core.rs: substitute"]}
{"id": "C26", "title": "Every part of an item is substituted", "statement": "For every supported item kind (fn, struct, enum, union, trait, impl, mod, foreign mod and nested members) every alias occurrence in names, generics, fields, variants, attributes, types and bodies is replaced.", "quantifier": "for every item tree", "why_tests_cant": "Coverage over all item kinds and nestings.", "anchors": ["src/substitution/alias_substitution_visitor.rs"]}
{"id": "C27", "title": "Deprecation warnings never leak into another invocation", "statement": "After any sequence of macro invocations in a thread, successful or failing, no deprecation warning is pending and the service is unborrowed; a warning is attached only to output of the invocation that raised it.", "quantifier": "for every history of invocations, each raising any number of warnings and failing at any stage", "why_tests_cant": "History property over a thread-local with reference counting and Drop.", "anchors": ["src/util/deprecation.rs: DeprecationService, DeprecationServiceScope, Drop", "src/lib.rs: compose_core", "src/interpreter/core.rs: substitute"]}
{"id": "C28", "title": "Deprecation attributes are injected once, in source order, and change nothing else", "statement": "Emitting warnings adds at most one deprecated attribute per node, only to nodes without one, in pre-order, one warning per node, until either warnings or eligible nodes run out, and leaves the code otherwise unchanged.", "quantifier": "for every item tree and every list of warnings", "why_tests_cant": "Tree traversal with a shared queue; all trees.", "anchors": ["src/util/deprecation.rs: DeprecationVisitor, process_deprecations"]}
{"id": "C29", "title": "Warnings name the macro that was invoked", "statement": "A deprecation warning raised while expanding compose!, compose_item! or compose_idents! carries that macro's name as prefix.", "quantifier": "for every sequence of macro invocations in one thread", "why_tests_cant": "Depends on the history of the thread, unit tests run one macro per thread.", "anchors": ["src/util/deprecation.rs: OnceCell prefix", "src/lib.rs: compose_core"]}
{"id": "C30", "title": "Separators are consistent", "statement": "An alias list separated throughout by commas or throughout by semicolons (optional trailing one) is accepted with all its items in order; a list that mixes them is rejected, also when the only differing one is the trailing separator before the block.", "quantifier": "for every number of items and every sequence of separators", "why_tests_cant": "All lengths and positions.", "anchors": ["src/parse/alias_spec.rs", "src/parse/raw_ast.rs", "src/parse/compose_item_spec.rs"]}
{"id": "C31", "title": "Value classification is longest-match", "statement": "An argument or alias value is classified by the candidate syntactic class that consumes the most tokens up to the separator, ties resolved in the fixed order int, string, underscore, identifier, path, type, expression; input no class accepts becomes raw tokens up to the separator, and nothing is lost or swallowed beyond the separator.", "quantifier": "for every token stream, separator and behaviour of the external parsers", "why_tests_cant": "Quantifies over all inputs and parsers; relies on the token distance measure being monotone.", "anchors": ["src/parse/value.rs: TerminatedValue::parse, try_parse", "src/util/token_distance.rs", "src/util/terminated.rs"]}
{"id": "C32", "title": "Token distance counts the leaves between two positions", "statement": "The distance between two positions of a stream is the number of leaf tokens between them, is symmetric, zero only when no leaf lies between, and additive.", "quantifier": "for every stream and every pair of positions", "why_tests_cant": "Recursive function over nested groups; all pairs of positions.", "anchors": ["src/util/token_distance.rs"]}
{"id": "C33", "title": "Errors stop the expansion and nothing partial is emitted", "statement": "The macro's output is either the concatenation, in loop order, of the outputs of all combinations, or only the compile error of the first failing combination.", "quantifier": "for every list of combinations and every failing position", "why_tests_cant": "All failing positions and all phases.", "anchors": ["src/interpreter/core.rs: execute, execute_block_rewrite", "src/lib.rs: compose_core", "src/expand/raw_ast.rs: expand"]}
{"id": "C34", "title": "Iterations are independent", "statement": "The output of one loop combination depends on that combination's values only: types, overloads and values are resolved afresh per combination, so permuting, adding or removing other values of a loop does not change it.", "quantifier": "for every set of loops and every pair of value lists sharing a value", "why_tests_cant": "Two-run property; AST nodes (and their ids) are shared between combinations.", "anchors": ["src/expand/raw_ast.rs: expand", "src/interpreter/core.rs: execute_block_rewrite", "src/ast/core.rs: metadata maps"]}
{"id": "C35", "title": "hash is a function within an invocation and yields identifiers", "statement": "Within one invocation hash of the same text gives the same result wherever it occurs, hash(ident) and hash(tokens) give identifiers starting with two underscores followed by digits only, and hash(string) a string of digits.", "quantifier": "for every input text and seed", "why_tests_cant": "All inputs and seeds; all occurrences, including those in different loop iterations.", "anchors": ["src/funcs.rs: hash", "src/core/environment/init_funcs.rs: hash", "src/core/environment/core.rs: seed"]}
{"id": "C36", "title": "raw passes its argument through unevaluated", "statement": "raw(x) yields exactly the tokens x for any x, even if x contains alias names, calls of built-in functions or invalid argument lists, whatever function table the call competes with.", "quantifier": "for every token list", "why_tests_cant": "All token lists, including ones that look like calls.", "anchors": ["src/core/environment/init_funcs.rs: raw", "src/resolve/call.rs: resolve_call_for_func", "src/parse/call.rs"]}
{"id": "C37", "title": "Unknown functions never cause an undefined-function error from source text", "statement": "A call-shaped value whose name is not a built-in is treated as an ordinary value; the undefined-function error is unreachable from parsed input as long as parser and resolver use the same function table.", "quantifier": "for every input and function table", "why_tests_cant": "Unreachability over all inputs.", "anchors": ["src/parse/call.rs", "src/parse/expr.rs", "src/resolve/call.rs: Call::resolve"]}
{"id": "C38", "title": "Type names round-trip", "statement": "Parsing the displayed name of any type gives the type back.", "quantifier": "for every type", "why_tests_cant": "All types, including nested variadics; the parser is not exercised.", "anchors": ["src/core/type_.rs: Display", "src/parse/type_.rs"]}
{"id": "C39", "title": "Node and function ids are unique", "statement": "No two ids handed out in a process are equal as long as fewer than 2^64 are requested, also under concurrent requests.", "quantifier": "for every interleaving of requests", "why_tests_cant": "All interleavings and counts up to 2^64.", "anchors": ["src/util/unique_id.rs"]}
{"id": "C40", "title": "Casting is coherent with types", "statement": "A successful cast yields a value of the requested type, casting to a value's own type is the identity, casting to tokens and back to a syntactic type parsed from the same tokens gives the same tokens, and string/identifier conversion round-trips for identifiers.", "quantifier": "for every value, target type and external parser behaviour", "why_tests_cant": "All value/type pairs.", "anchors": ["src/ast/value.rs: try_cast, type_"]}
{"id": "C41", "title": "Which failures a macro use can have", "statement": "Whatever is written, a use of a macro yields code, a syntax error, one of the five errors TypeError, EvalError, RedefinedNameError, SignatureError (naming an existing function) or SubstitutionError, or panics in one of four known places; the internal, undefined-function and coercion failures, index errors, overflows and missing metadata never surface, and a syntax error is reported exactly if the input does not parse.", "quantifier": "for every input of every macro, every behaviour of the external parsers and every sequence of uses in a thread", "why_tests_cant": "Unreachability over all inputs; involves the invariants between parser, resolver, evaluator and visitor.", "anchors": ["src/lib.rs: compose_core", "src/error.rs", "src/interpreter/core.rs", "src/resolve", "src/eval", "src/substitution"]}
{"id": "C42", "title": "The pipeline computes the meaning of the input", "statement": "The code a use yields is, for each combination of loop values in nested-loop order, the block with every alias replaced by the value its definition has under the id-free typing and evaluation rules; the error it reports is that of the first combination without such a meaning.", "quantifier": "for every input, every macro and every behaviour of the external parsers that print what they read", "why_tests_cant": "Relates the composition of all phases (ids, scopes, metadata tables, iterators, token walker, visitor) to a direct definition, over all inputs.", "anchors": ["src/lib.rs: compose_core", "src/interpreter/core.rs: execute", "src/expand/raw_ast.rs", "src/resolve", "src/eval", "src/substitution"]}
{"id": "C43", "title": "Semicolons are warned about and nothing else is", "statement": "An accepted input raises the semicolon warning exactly if its alias list is separated by semicolons.", "quantifier": "for every accepted input of every macro", "why_tests_cant": "All inputs; the flag travels from the list parser through the scope of the deprecation service.", "anchors": ["src/parse/raw_ast.rs", "src/parse/compose_item_spec.rs", "src/parse/alias_spec.rs"]}
{"id": "C44", "title": "How substitution ends is decided by the first part that stops parsing", "statement": "Substitution in a block fails exactly if some part of it (attributes, visibility, name, generics, signature, field, statement, ...) is not accepted at some stage of its replacement; the failure is that of the first such part in source order, blamed on the alias replaced last. Hence the outcome of a use, failures included, is given by an explicit definition.", "quantifier": "for every block, every set of aliases and every behaviour of the external parsers that print what they read", "why_tests_cant": "All items nested to any depth, all parsers; order of failures is only observable with several simultaneous failures.", "anchors": ["src/substitution/alias_substitution_visitor.rs", "src/substitution/substitute_idents.rs", "src/interpreter/core.rs: execute"]}
{"id": "C45", "title": "Output does not depend on the process-wide counter, except through hash", "statement": "Two compilations with the same macro uses yield the same outputs whatever values the unique-id counter supplied for function ids and node ids; uses without a call of hash also ignore the environment's seed.", "quantifier": "for every list of uses, every counter value and every behaviour of the external parsers", "why_tests_cant": "Quantifies over pairs of runs with arbitrary counter values; ids flow through parser, resolver tables and evaluator.", "anchors": ["src/util/unique_id.rs", "src/lib.rs: compose_core", "src/core/environment/core.rs", "src/funcs.rs: hash"]}
{"id": "C46", "title": "Naming an intermediate value does not change the result", "statement": "After a definition a = v, using a or writing v again in later definitions gives the same bindings and the same errors.", "quantifier": "for every list of definitions before and after, every value v, every choice of the occurrences replaced, every behaviour of the external parsers", "why_tests_cant": "A relation between two programs at every nesting depth; overload costs of whole expressions have to agree.", "anchors": ["src/resolve/value.rs", "src/resolve/call.rs", "src/eval/value.rs"]}
{"id": "C47", "title": "Aliases may be renamed", "statement": "Calling an alias by another, unused name in its definition, in later definitions, in the code and in string placeholders yields the same code; the definitions yield the same values and errors.", "quantifier": "for every list of definitions, every alias, every unused name, every block and every behaviour of the external parsers", "why_tests_cant": "A relation between two programs over all nesting depths, all strings and all names.", "anchors": ["src/resolve/alias_spec_item.rs", "src/eval/value.rs", "src/substitution/substitute_idents.rs", "src/substitution/format_string.rs"]}
{"id": "C48", "title": "Every built-in function means what its table says", "statement": "A definition that calls a function with plain arguments evaluates to what a table of the functions' meanings says about the values of its arguments, including which error or panic it causes; unknown functions and wrong numbers of arguments included.", "quantifier": "for every function name, every list of arguments, all earlier definitions, every seed and every behaviour of the external parsers", "why_tests_cant": "All values of eight types for every function, and every way the casts can fail.", "anchors": ["src/funcs.rs", "src/core/environment/init_funcs.rs", "src/resolve/call.rs", "src/eval/call.rs", "src/ast/value.rs"]}
{"id": "C49", "title": "Resolution errors are about the first definition that deserves one", "statement": "An error of name or overload resolution is about the first refused definition and names the function called outermost in it or the name defined twice; later definitions do not change it; errors and panics of evaluation are only seen if no definition is refused.", "quantifier": "for every list of definitions, every nesting of calls, every seed and every behaviour of the external parsers", "why_tests_cant": "Unboundedly many definitions and nestings; every position of the faulty one.", "anchors": ["src/resolve/alias_spec.rs", "src/resolve/alias_spec_item.rs", "src/resolve/call.rs", "src/interpreter/core.rs", "src/error.rs"]}
{"id": "C50", "title": "Error texts identify what they mention", "statement": "Different types have different texts; a signature's text determines name, parameters and result, and the list of overloads in a message determines all of them; every built-in function meets the assertions of Func::new.  The text of a call determines the call.", "quantifier": "for all types, signatures, lists of overloads and calls", "why_tests_cant": "A claim about pairs of texts of unbounded length.", "anchors": ["src/core/type_.rs", "src/core/environment/core.rs", "src/core/environment/init_funcs.rs", "src/ast/call.rs", "src/ast/value.rs", "src/error.rs"]}
{"id": "C51", "title": "Coercion costs fit in 32 bits", "statement": "Resolving with 32-bit costs, checked as in a debug build or wrapping as in a release build, does the same as with unbounded costs.", "quantifier": "for every list of definitions, every function table and every behaviour of the external parsers", "why_tests_cant": "The costs double with every nested variadic call; the tests nest two levels.", "anchors": ["src/resolve/call.rs", "src/core/type_.rs", "src/ast/call.rs", "src/ast/value.rs"]}
{"id": "C52", "title": "The work of overload resolution", "statement": "Resolving a call resolves each argument at most once per overload (at most seven), nothing more; for nested calls that bound is needed: a chain of n nested concat calls takes at least 2^n resolutions although its source is linear in n.", "quantifier": "for every expression, scope and expected type; for every n", "why_tests_cant": "A bound on work for unbounded nesting.", "anchors": ["src/resolve/call.rs", "src/resolve/expr.rs", "src/core/environment/init_funcs.rs"]}
{"id": "C53", "title": "An attribute is the block form with the item as its block", "statement": "For a header of loops and definitions that does not end with a separator, `#[compose_item(header,)] item` is read exactly like `compose!(header, { item })` and like `compose!(header, { item },)`, so both yield the same output wherever they stand, and the uses after them do too unless they are the first in the compilation. In the attribute the last comma may be left out. A header without definitions corresponds to the block form without a comma. The correspondence does not extend to headers that end with two separators, which only the attribute accepts.", "quantifier": "for all headers, items, trailing commas, uses around them, counter values and external parsers that read no further than a comma", "why_tests_cant": "The attribute and the block form have separate parsers; tests compare them on a few headers, the equivalence the documentation states is about all of them.", "anchors": ["src/parse/compose_item_spec.rs: ComposeItemSpec::parse", "src/parse/raw_ast.rs: RawAST::parse", "src/lib.rs: compose_core, compose_item", "README.md: compose_item"]}
{"id": "C54", "title": "compose_idents! is compose! under another name", "statement": "Writing compose_idents! for compose!, or the other way round, in any of the uses of a compilation changes no output unless the first use is among them; and then each use still fails in the same way or yields the same blocks, the only difference being the macro name at the head of its warnings. Uses that raise no warning yield the same output in any case.", "quantifier": "for all lists of uses, choices of uses to rename, external functions", "why_tests_cant": "The changelog says the macros are functionally identical; that is a statement about all inputs and all histories of the thread, because the name is kept in thread-local state.", "anchors": ["src/lib.rs: compose, compose_idents, compose_core", "src/util/deprecation.rs: DeprecationService", "CHANGELOG.md: Deprecated, compose_idents!"]}
{"id": "C55", "title": "Loops are unrolled", "statement": "The rounds of an input behave as inputs without loops executed one after the other: all their code is concatenated, the first one that fails is reported, and nothing is executed if a pattern does not match its value. At the level of source text, for x in [v1, .., vn] in front of an input yields what the inputs x = v1, .. up to x = vn, .. yield, one after the other, wherever the uses stand and whatever ids they draw, provided the values end at their commas and no further loop follows. With a second loop peeling off one of them is not enough: unrolling the first changes what is visible in the values of the second, and unrolling the second changes the order of the code. But all loops at once can be unrolled: any number of loops with any patterns in front of an input of either macro yields what its rounds, the input with the definitions x = v, .. of one combination of values in front, yield one after the other; and a type error if a pattern does not match a value.", "quantifier": "for all inputs, external functions and parsers; for the text also all patterns, lists of values and remaining tokens that are read up to their commas", "why_tests_cant": "adr/0001 decides that every variant is analysed independently, as if written out; it is a relation between two programs, each run by the whole pipeline, for every list of values and every block.", "anchors": ["src/expand/raw_ast.rs: Expand for RawAST", "src/interpreter/core.rs: Interpreter::execute", "src/parse/loop_spec_item.rs", "src/parse/loop_source_value_list.rs", "adr/0001-code-repetition.md: Consequences 1"]}
{"id": "C56", "title": "Spans through substitution", "statement": "Every token of the substituted stream carries the span of the token it comes from: unreplaced tokens keep theirs, inserted tokens have those of the alias's value, a formatted string literal keeps that of the literal. A failed substitution is reported at the occurrence of the alias replaced last before the node stopped parsing. Spans do not influence what is substituted. Groups are the exception: their delimiters get the span of the whole group.", "quantifier": "for all token streams with spans, aliases, values and node parsers", "why_tests_cant": "Spans are invisible in the output the tests compare; the stderr tests fix positions for a handful of failing inputs.", "anchors": ["src/substitution/stream_visitor.rs: StreamVisitorContext::fold_group, visit_stream", "src/substitution/substitute_idents.rs: SubstituteIdentsVisitor", "src/error.rs: Error"]}
{"id": "C57", "title": "Spans of the values", "statement": "Where the spans of an alias's value come from is a function of the overloads chosen: each built-in function takes them from its arguments, from the function's name in the call, from reading its argument, or from nowhere (the call site of the macro); each coercion keeps them or reads them off the tokens. An alias used in another definition brings the spans of its own definition. Hence every span of a value is one of its definition or of an earlier one, or the macro's call site, and the values inserted are those of the model without spans.", "quantifier": "for all lists of definitions, external parsers that do not look at spans and inherit them, hash seeds", "why_tests_cant": "Spans are invisible in the expanded code; whether each of some thirty overloads and all coercions keep them is not observable in the tests' results.", "anchors": ["src/core/environment/init_funcs.rs", "src/ast/value.rs: Value::try_cast", "src/eval/value.rs", "src/eval/call.rs", "src/funcs.rs"]}
{"id": "C58", "title": "Places of errors in definitions", "statement": "An unknown function and a call that fits no overload are reported at the name of the definition's outermost function; a failed concat at the name of that call, however deep; a failed conversion at a token of the definition or of an earlier one, or at the call site; a name defined twice at the value of its second definition. No other error is reported.", "quantifier": "for all lists of definitions with distinct ids, external parsers and hash seeds", "why_tests_cant": "Each combination of error, nesting and aliases has its own place; the stderr tests show one place for each of a few errors.", "anchors": ["src/resolve/alias_spec_item.rs", "src/resolve/core.rs: Scope::try_add_name", "src/resolve/call.rs", "src/error.rs: Error, internal_error!", "src/eval/call.rs"]}
{"id": "C59", "title": "The grammar of the input", "statement": "What the macros accept is a grammar: loops (for, a name or a pattern, in, a bracketed list of expressions and tuples), then definitions with separators of one kind, then for compose! the block and perhaps one more separator of that kind, for #[compose_item] perhaps one more separator of any kind if there are definitions. An expression is a call if a known function name and parentheses stand at its head; its arguments are the pieces between commas, all dropped if one of them is not an expression; otherwise it is a value up to the comma. The parsers accept exactly the texts of this grammar, read them as it says, and every text has at most one reading.", "quantifier": "for all token streams, external parsers, sets of function names, values of the id counter", "why_tests_cant": "Exactness over all token streams, including all the rejected ones, is not testable.", "anchors": ["src/parse/raw_ast.rs:10", "src/parse/compose_item_spec.rs:8", "src/parse/loop_spec.rs:6", "src/parse/loop_spec_item.rs:7", "src/parse/loop_source_value_list.rs:8", "src/parse/tuple.rs:35", "src/parse/alias_spec.rs:9", "src/parse/call.rs:11", "src/parse/expr.rs:9", "src/util/terminated.rs:35"]}
{"id": "C60", "title": "Error messages say what failed", "statement": "When definitions fail, the message is one of five: a redefinition naming the alias defined before; a wrong call showing every overload of the function, joined by ' | ', and the definition as written; an undefined function; a concatenation listing texts whose concatenation is no identifier; a conversion naming the type and the parser's reason for tokens that are not of that type, or a string that is no identifier. No other failure occurs, in particular no cast inserted by overload resolution ever fails. The message starts with the kind of the error, the kind can be read back from the message, and so can the name redefined and the function undefined.", "quantifier": "all oracles with spans, all seeds, all lists of definitions with unique node ids; all failures for the messages", "why_tests_cant": "Tests pin the text of a handful of messages; that no other text can come out for any program, and that no inserted cast can fail for any nesting of calls, is a statement about all programs.", "anchors": ["src/error.rs:9-24", "src/error.rs:73-78", "src/ast/value.rs:81-255", "src/core/environment/init_funcs.rs", "src/resolve/call.rs:148-201"]}
{"id": "C61", "title": "Spans decide nothing", "statement": "Two inputs whose tokens differ in their spans only yield, macro use by macro use, the same code up to spans, or an error of the same kind; and erasing the spans of what the macros yield gives what the macros yield on the erased input.", "quantifier": "all lists of uses of the three macros with any tokens and spans, all seeds and ids, all parsers with spans that do not look at spans", "why_tests_cant": "Tests run on the spans rustc happens to give; that no span can influence a decision in parsing, expansion, evaluation, substitution or emission is a statement about all assignments of spans.", "anchors": ["src/lib.rs:36-67", "src/parse/", "src/expand/raw_ast.rs", "src/substitution/alias_substitution_visitor.rs", "src/util/deprecation.rs", "src/interpreter/core.rs"]}
{"id": "C62", "title": "The compiler is given spans of the invocation only", "statement": "Every span in the code a macro use yields, and in the compile_error! tokens it yields instead, is the span of a token of that same use, or the call site, or a join of such spans. Where spans cannot be joined (stable compilers) it is a span of a token or the call site.", "quantifier": "all lists of uses, all parsers with spans whose nodes and messages have the spans of their tokens or the call site", "why_tests_cant": "The compile tests check the place of three errors; provenance is about every token of every output, including that nothing leaks from one use into the next through the thread-local state.", "anchors": ["src/lib.rs:36-67", "src/interpreter/core.rs", "src/parse/", "src/error.rs:73-78", "src/substitution/alias_substitution_visitor.rs", "src/util/deprecation.rs"]}
{"id": "C63", "title": "What is said of rejected input, and where", "statement": "The messages of a syntax error, their order and their places are those of a separate relation over the grammar: in loops the wrong pattern, the missing `in`, brackets or comma; in definitions the missing name, `=` or separator, or the mixed separators; then the missing block, a separator of the other kind after it, and what is left over. The first wrong thing is reported and nothing after it. There are no other syntax errors except for tokens left unread inside a group, of which one is reported. A macro use that yields no code and does not panic yields at least one compile_error!.", "quantifier": "all lists of uses, all parsers with spans that agree with the parsers without", "why_tests_cant": "Two compile tests check one message each; the property is about every malformed input, including that nothing wrong is accepted silently and that no earlier error is hidden by a later one.", "anchors": ["src/parse/raw_ast.rs:10-55", "src/parse/compose_item_spec.rs:8-50", "src/parse/alias_spec.rs", "src/parse/alias_spec_item.rs", "src/parse/loop_spec.rs", "src/parse/loop_alias.rs", "src/parse/tuple.rs", "src/parse/loop_source_value_list.rs", "src/util/combined.rs:18-50", "src/lib.rs:36-67"]}
{"id": "C64", "title": "Loops keep spans and errors", "statement": "An input with loops behaves like its rounds written out one after the other without loops: the tokens of the rounds in order with the same spans, or the error of the first round that fails, with the same text and at the same place. The exception is a value that does not fit the pattern of its loop: then nothing is generated and the first such value, in the order of the rounds and within a round of the loops, is reported at its own place, with a text that tells apart a tuple for a single alias (or the reverse), a different number of nodes, and a different shape.", "quantifier": "all parsed inputs with any number of loops, values and tuple patterns of any depth; all lists of uses", "why_tests_cant": "The tests unroll a few loops and compare values at run time; spans and the place of an error are not observable there, and no test feeds a tuple that does not fit.", "anchors": ["src/expand/raw_ast.rs:13-123", "src/ast/loop_source_value_list.rs:33-38", "src/interpreter/core.rs:108-121", "adr/0001-code-repetition.md:184-186"]}
{"id": "C65", "title": "What is said of input that is read but fails, and where", "statement": "Every compile error (other than a syntax error) of a use is either a value of a loop that does not fit its pattern, or of the first round that fails: then it is the failure of one of the round's definitions with the text and place of C60, or, if all definitions have values, a failed substitution that names an alias of the round, shows that alias's value and what syn says, and is placed at an identifier of the block with the alias's name.", "quantifier": "all lists of uses, all oracles, parsers and syntax with spans that meet the assumptions", "why_tests_cant": "One compile test shows one such message; the property excludes every other kind of report, in particular internal errors and places outside the definition or the alias concerned.", "anchors": ["src/interpreter/core.rs:80-121", "src/lib.rs:31-68", "src/substitution/alias_substitution_visitor.rs:72-458", "src/substitution/substitute_idents.rs:38-89", "src/error.rs:9-78"]}
{"id": "C66", "title": "Definitions that are not used do not matter", "statement": "A definition that can be evaluated and that neither a later definition nor the block mentions may be left out: the other aliases get the same values and the use has the same output, code or error, warnings included. A definition that cannot be evaluated is reported although nothing uses it (refuted without the hypothesis).", "quantifier": "all built-in oracles, parsers that print what they parse, inputs with any loops and definitions, all positions of the definition, all uses before and after", "why_tests_cant": "quantifies over all definitions before and after, all overload resolutions and all blocks; a test sees single inputs", "anchors": ["src/interpreter/core.rs:23-121", "src/resolve/alias_spec.rs", "src/eval/alias_spec.rs", "src/substitution/alias_substitution_visitor.rs:72-458"]}
{"id": "C67", "title": "Independent definitions may be reordered", "statement": "Exchanging neighbouring definitions that do not mention each other, any number of times, leaves the value of every alias as it was, and with it the output of the use if the definitions can be evaluated; code stays the same code. The order matters when one mentions the other, and for which of several errors is reported (both refuted).", "quantifier": "all oracles, parsers and syntax, all inputs with any loops, all rearrangements", "why_tests_cant": "all rearrangements of any number of definitions", "anchors": ["src/interpreter/core.rs:23-121"]}
{"id": "C68", "title": "Blocks are processed statement by statement", "statement": "Without loops and warnings the output for a block is the output for its first statements followed by the output for the others, with the same definitions; if one of them fails the first failure is the output. Not with warnings, which are attached once per block, nor with loops, which repeat the whole block (both refuted).", "quantifier": "all oracles, parsers and syntax that cover their tokens, all definitions, all ways to split a block", "why_tests_cant": "all blocks and all ways to split them", "anchors": ["src/interpreter/core.rs:80-121", "src/substitution/alias_substitution_visitor.rs:131-186"]}
{"id": "C69", "title": "Invisible groups from macro_rules! fragments are read through", "statement": "Input holding what macro_rules! fragments such as $t:ty or $name:ident stand for (groups with Delimiter::None, which syn enters and leaves silently) parses like the same tokens without the groups, provided that syn's own parsers read through them, that no group is empty and that none holds a comma at its top level; without such groups the parser is the one of the other claims. The arguments of a call are the pieces between commas outside of invisible groups. The distance in tokens is that of token_distance.rs on syn's buffer. An empty group and a comma in a group can change the parse (both refuted).", "quantifier": "all parsers that read through invisible groups at the positions of the input, all inputs of the three macros", "why_tests_cant": "one test uses a $t:ty of one token; all inputs and all ways of grouping their tokens", "anchors": ["src/util/terminated.rs:35-69", "src/util/token_distance.rs:1-60", "src/parse/value.rs:26-115", "tests/compile/nested_type_token_compose.rs:1-20"]}
{"id": "C70", "title": "Nested calls mean what the functions say of the values of their arguments", "statement": "In definitions whose nested calls do not depend on what is wanted of them (no hash of a string where an identifier is wanted, and no concat of identifiers whose first argument needs expensive conversions), the first definition that does not fit is a signature error naming its outermost call, and otherwise every alias has the value obtained by computing its expression from the inside out with the table of functions: choice of overloads and conversions play no role. Hence a call may be given a name or written out, expressions of the same kind and meaning may be exchanged, and concat within concat may be flattened, for strings and for identifiers. Both exceptions and the restriction to one kind are needed (refuted).", "quantifier": "all oracles and seeds, all lists of definitions with calls nested to any depth that pass the independence check", "why_tests_cant": "tests nest calls two or three deep in a few combinations; the choice of overloads depends on summed costs of all nested arguments, so all trees of calls matter", "anchors": ["src/resolve/call.rs:8-200", "src/resolve/value.rs:9-49", "src/core/type_.rs:43-66", "src/core/environment/init_funcs.rs:1-503", "src/eval/call.rs:1-37"]}
{"id": "C71", "title": "Expansions in several threads do not interfere, in any schedule", "statement": "Several threads each expand a sequence of macro uses; they share nothing but the id counter, from which each use draws its seed, one id per function overload, one per AST node and any number of further ids. For every interleaving of the draws that does not wrap the counter, each thread yields exactly what it would yield alone in the process with the seeds it drew, and the seeds of all uses of all threads are pairwise distinct. Uses without hash yield the same in every schedule, no thread waits for another, and only hash (through its seed) and warnings (through the thread's first macro) can tell schedules or placements apart; both do.", "quantifier": "for all numbers of threads, lists of uses per thread, plans of further draws, initial counters, schedules and oracles", "why_tests_cant": "The number of interleavings is exponential and a race shows in few of them; the claim is about all of them, about any number of threads and about ids with arbitrary gaps.", "anchors": ["src/util/unique_id.rs:3-11", "src/lib.rs:31-68", "src/core/environment/core.rs:19-30", "src/core/type_.rs:112-118", "src/util/deprecation.rs:12-14"]}
{"id": "C72", "title": "The algebra of loops", "statement": "The values of the first loop can be split at any place: the macro yields the code of both parts one after the other, and code exactly if both do. Splitting any other loop, or writing the values of any loops in another order, yields the same rounds in another order, failures included. Neighbouring loops of which no value mentions a name of the other can be exchanged any number of times: the use still yields code, and the code consists of the same pieces, one per round, in another order; ids drawn do not matter. Exchanging loops whose values refer to the other changes the code, and the report of a failing part need not be that of the whole, since all patterns are matched before any round is evaluated.", "quantifier": "for all inputs, loops, patterns, values, external functions and parsers", "why_tests_cant": "The claims relate pairs of programs for every list of loops, every number of values and every block; the number of rounds is the product of the lengths.", "anchors": ["src/expand/raw_ast.rs: Expand for RawAST", "src/util/cross_product.rs", "src/interpreter/core.rs: Interpreter::execute", "adr/0001-code-repetition.md"]}
{"id": "C73", "title": "Uses inside the block of another use", "statement": "Substituting twice is substituting once with the values of both, if no value of the first has a name of the second or a percent sign in its text, and no string has a run of percent signs. A use whose block is another use yields one inner use per round, in order, with the values of the round put into its tokens. If the inner one mentions no alias of the outer, the outer definitions no loop variable of the inner, and the values are harmless in the sense above, then expanding these yields, one after the other, exactly the code of the single use with the outer loops in front of the inner ones and the outer definitions in front of the inner. Each condition is needed: an escaped placeholder is filled in by the second step, an outer value with the name of an inner alias is replaced again, and an outer alias can put a function's name into the inner header.", "quantifier": "for all uses, numbers of loops and rounds, blocks, external functions and parsers (faithful, covering)", "why_tests_cant": "The claim relates the outputs of a two-step expansion with any number of inner uses to those of one use, for every header and every block.", "anchors": ["src/interpreter/core.rs: Interpreter::execute", "src/substitution/alias_substitution_visitor.rs", "src/substitution/format_string.rs", "src/lib.rs"]}
{"id": "C74", "title": "The case conversions agree on the words of a text", "statement": "snake_case, camel_case and pascal_case spell the same words: a word begins at the beginning of a run of letters and digits, at a capital after a small letter (digits between them do not count), and at a capital after a capital if a small letter follows. No letter or digit is lost, added or moved. The result of snake_case is in snake case and texts in snake case are left alone; texts with the same snake case have the same camel case and pascal case; snake_case gives the original back from capitals with underscores, and from pascal or camel case exactly if the words can be told apart without separators. The result is an identifier exactly if the first letter or digit is a letter, otherwise the macro panics. In definitions, snake_case inside of another conversion and upper or lower inside of upper or lower may be left out. pascal_case and camel_case are not idempotent.", "quantifier": "all ASCII texts; all definitions whose calls do not depend on what is wanted of them", "why_tests_cant": "The tests convert a handful of names; the round trips depend on the case of letters around every boundary of words, so that single examples pass whichever rule is used.", "anchors": ["src/funcs.rs", "src/core/environment/init_funcs.rs", "README.md"]}
{"id": "C75", "title": "Raw identifiers can be given to the functions like other identifiers", "statement": "A raw identifier such as r#type, which is accepted as a value, can be given to every function that takes identifiers, and composes an identifier with others.", "quantifier": "all definitions, all raw identifiers, every implementation of the external functions that refuses # in the text of a new identifier", "why_tests_cant": "The only test with a raw identifier binds it and gives it to no function; what happens is a panic of Ident::new inside of the compiler, in each function separately.", "anchors": ["src/core/environment/init_funcs.rs", "src/funcs.rs", "src/interpreter/tests/types.rs"]}
{"id": "C76", "title": "What substitution parses, and that it is quadratic", "statement": "Substituting a block parses each part of it once, a statement once more, and the whole part again after each alias name and each string literal in it, whether or not the string mentions an alias. The tokens parsed are bounded by the square of the tokens of the parts, times the tokens of the largest alias, and a statement of string literals without any alias reaches the square.", "quantifier": "all blocks, all alias tables, all external parsers that print what they parsed", "why_tests_cant": "The tests compare the code that comes out, not how often it was parsed; they use small blocks for which the square does not show.", "anchors": ["src/substitution/substitute_idents.rs", "src/substitution/alias_substitution_visitor.rs"]}
{"id": "C77", "title": "Different seeds or texts are hashed as different bytes", "statement": "The bytes that hash feeds to the hasher determine the seed and the text, for all seeds of 64 bits and all texts of Unicode characters, so two calls of hash compose the same name only for the same seed and text or where SipHash itself collides; the hash has 64 bits and its digits lose nothing.", "quantifier": "all seeds, all Unicode texts, all values given to hash", "why_tests_cant": "Tests hash a handful of ASCII texts under one seed; that no pair of seed and text shares its bytes with another is a statement about all pairs.", "anchors": ["src/funcs.rs", "src/core/environment/init_funcs.rs"]}
{"id": "C78", "title": "How large the values and the code get", "statement": "The value of a definition is at most as large as the product of the sizes of the definitions up to it, and the code of a use at most the sum over its rounds of such products times the size of the block, plus the attributes of the warnings; a name can double with each definition, so the product cannot be replaced by anything less than exponential.", "quantifier": "all definitions, all uses, all external functions that enlarge texts and tokens by a bounded factor; all numbers of definitions for the lower bound", "why_tests_cant": "It is a bound for all inputs and a growth rate for an infinite family; tests run a few short definitions.", "anchors": ["src/core/environment/init_funcs.rs", "src/funcs.rs", "src/eval/call.rs", "src/substitution/format_string.rs", "src/interpreter/core.rs"]}
{"id": "C79", "title": "Parsing the definitions takes linearly many rounds of attempts", "statement": "The parser of values, which makes seven attempts with syn's parsers and takes the longest, is started at most once for every token outside of braces in the loops and definitions of a macro, however deep calls and tuples are nested and whether or not the input parses; each time it makes one to seven values.", "quantifier": "all inputs, all behaviours of syn's parsers, all sets of functions", "why_tests_cant": "Attempts on forks that are dropped leave no trace in a result; that none is ever repeated at the next level is a statement about all nestings.", "anchors": ["src/parse/value.rs", "src/parse/expr.rs", "src/parse/call.rs", "src/parse/tuple.rs", "src/parse/loop_source_value_list.rs", "src/util/terminated.rs"]}
{"id": "C80", "title": "No identifier of the generated code comes from nowhere", "statement": "Every identifier in the generated code, at any depth, is an identifier of the macro's input, one that was composed and accepted as an identifier, or one of the words of a deprecation attribute; the last only if the use raised a warning. With no calls in the definitions and no warning, the code has only identifiers of the input.", "quantifier": "all macro uses in any sequence of uses, all behaviours of syn's parsers that put no identifier into a node that was not in the tokens", "why_tests_cant": "Hygiene of the output is about every identifier of every expansion; tests compare some expansions.", "anchors": ["src/lib.rs", "src/interpreter/core.rs", "src/parse/value.rs", "src/eval", "src/funcs.rs", "src/substitution/substitute_idents.rs", "src/util/deprecation.rs"]}
{"id": "C81", "title": "The spans of the generated code, token by token", "statement": "The generated code is the block once per round with the tokens of each value in the place of its alias: every token of the block that is not an alias keeps the span it was written with, in the order it was written (where clauses that the visitor drops excepted), every token of a value has the span of the value, and with semicolons as separators the only tokens added are deprecation attributes all of whose tokens are at the call site.", "quantifier": "all macro uses in any sequence of uses, all parsers whose nodes print as the tokens parsed with their spans, no alias that is a keyword of an item", "why_tests_cant": "Spans are invisible in the tests of expansions and seen in compile tests only at the tokens rustc points to; the claim is about each token of every expansion.", "anchors": ["src/substitution", "src/interpreter/core.rs", "src/util/deprecation.rs", "src/expand/raw_ast.rs", "src/parse/raw_ast.rs"]}
{"id": "C82", "title": "Code generated from input with invisible groups", "statement": "A use whose tokens hold invisible groups (as from the fragments of a macro_rules! macro) has the outcome of the same use without the groups: the same syntax error, the same error, the same panic, or code that is the same token by token but for invisible groups kept in it.", "quantifier": "all sequences of macro uses, all seeds and ids, all functions of syn that see through the groups of the streams that occur, no group empty or with a comma at its top, no alias that is a keyword of an item", "why_tests_cant": "Tests cannot go through all places of an input where a fragment of another macro may stand, nor compare each with the input where its tokens are written out.", "anchors": ["src/lib.rs", "src/interpreter/core.rs", "src/eval", "src/substitution", "src/util/deprecation.rs", "src/parse"]}
{"id": "C83", "title": "Aliases named like keywords", "statement": "Whatever its aliases are named, a use generates its block with every name, type, expression, attribute, signature and statement replaced, and with the keywords of its items (struct, enum, union, trait, impl, mod, extern, for, unsafe, auto, default) left as they are and with the spans they were written with; it fails as the first part that fails says. Every alias is a name the parser accepts, so where reserved words are not names an alias can only meet the keywords union, auto and default.", "quantifier": "all sequences of macro uses, all blocks, all aliases and values, all seeds and ids, all functions of syn that print what they read", "why_tests_cant": "The keyword and the name are the same token; only the place in the block tells them apart, and there are infinitely many blocks and nestings of items.", "anchors": ["src/substitution/alias_substitution_visitor.rs", "src/substitution/substitute_idents.rs", "src/parse/alias.rs", "src/parse/loop_alias.rs", "src/interpreter/core.rs"]}
{"id": "C84", "title": "Every name, value and tuple that is read stands in the input, with the spans it has there", "statement": "If the input of compose!, compose_idents! or #[compose_item] is accepted, then its loops and definitions are the tokens of the input in order, with the separators of the grammar between them: an alias or loop pattern is the identifier at that place, an identifier or `_` has the span of its token, a literal, path, type or expression is what syn's parser makes of the tokens that begin there (none of them left unread), other values are the tokens up to the comma, a call has the span of the function name, holds the tokens of the parentheses and its arguments are written between the commas inside, a tuple has the span of its opening parenthesis; the block is what syn makes of the tokens after the definitions, or of the item in braces at the attribute's span. Conversely, together with the grammar of C59 for the tokens without spans, this determines whether the input is accepted and everything that is read except ids: there is exactly one reading that fits both.", "quantifier": "all parsers of syn with spans, all sets of function names, all inputs and ids", "why_tests_cant": "Spans are not visible to tests that compare generated code, and the tokens of definitions nest without bound.", "anchors": ["src/parse/expr.rs", "src/parse/value.rs", "src/parse/call.rs", "src/parse/tuple.rs", "src/parse/alias_spec.rs", "src/parse/raw_ast.rs", "src/parse/compose_item_spec.rs"]}
{"id": "C85", "title": "The order in which hash maps are iterated does not matter", "statement": "The bindings of the definitions are kept in hash maps whose order of iteration is random. Whatever order each map is iterated in (another for every use, round of a loop and map), every use of the macros in a compilation has the same output: the same code, error or panic; and the substitutions of a round hold the same value for every alias.", "quantifier": "all sequences of macro uses, all functions of syn, heck and std, all permutations in which each hash map is iterated", "why_tests_cant": "RandomState gives a map another order in every process; a test sees one order per run and cannot choose it.", "anchors": ["src/eval/alias_spec.rs", "src/eval/alias_spec_item.rs", "src/interpreter/core.rs"]}
{"id": "C86", "title": "Invisible groups and spans together", "statement": "For input with invisible groups whose tokens and delimiters carry spans: without the spans the macros do what they do without spans, so inputs that differ in spans only yield the same code up to spans or errors of the same kind; every span in the code or the compile errors is that of a token or delimiter of the invocation, invisible ones included, or the call site; and for input without invisible groups the outcome is, spans and messages included, that of the parser that knows nothing of them.", "quantifier": "all sequences of macro uses, all inputs with invisible groups nested in any way, all spans, all functions of syn, heck and std that do not look at spans", "why_tests_cant": "Invisible groups come from macro_rules fragments only and their spans cannot be chosen; where an error is shown for such input is not observable in a unit test, and tests sample inputs.", "anchors": ["src/parse/value.rs", "src/parse/call.rs", "src/parse/expr.rs", "src/parse/tuple.rs", "src/parse/alias_spec.rs", "src/parse/loop_spec.rs", "src/parse/raw_ast.rs", "src/parse/compose_item_spec.rs", "src/lib.rs"]}
{"id": "C87", "title": "Invisible groups move no span but where something begins", "statement": "If syn's own parsers read through invisible groups, none of which is empty or holds a comma at its top, then an input with such groups parses, spans and messages included, as the same tokens without the groups do: the values, names and separators have the same spans, except that a call or a tuple in a loop that begins with an invisible group is placed at the opening of that group; and the messages are the same, each at the same place or at the opening of the invisible group the parser stands before.", "quantifier": "all inputs of both macros with invisible groups nested in any way, all spans, all functions of syn that read through invisible groups", "why_tests_cant": "Invisible groups come from macro_rules fragments only, their spans cannot be chosen, and the place of an error is not observable in a unit test.", "anchors": ["src/parse/value.rs", "src/parse/call.rs", "src/parse/expr.rs", "src/parse/tuple.rs", "src/parse/alias_spec.rs", "src/parse/loop_spec.rs", "src/parse/raw_ast.rs", "src/parse/compose_item_spec.rs"]}
{"id": "C88", "title": "What uses with invisible groups come to, with the spans", "statement": "A use with invisible groups is a syntax error exactly if its input does not parse, with the messages of the parser; if it can be read through its groups, exactly if the same tokens without the groups are rejected, with the same messages, each at the same place or at the opening of an invisible group. Otherwise what is read is the same up to groups inside values and the beginnings of calls and tuples; the code is the block of every round with the tokens of the values in place of the aliases, every token with the span it was written with; and a compile error is a value that does not fit its loop, named where it begins, or belongs to the first round that fails, at a definition or at an occurrence of an alias.", "quantifier": "all sequences of uses, all inputs with invisible groups nested in any way, all spans, all functions of syn, heck and std that meet the laws named", "why_tests_cant": "Invisible groups come from macro_rules fragments only, their spans cannot be chosen, and spans of generated code are not observable in a unit test.", "anchors": ["src/lib.rs", "src/interpreter/core.rs", "src/expand/raw_ast.rs", "src/substitution/alias_substitution_visitor.rs", "src/parse/raw_ast.rs", "src/parse/compose_item_spec.rs"]}
{"id": "C89", "title": "Moving a use moves what it comes to", "statement": "Spans are handed on and never looked at: if the spans of the tokens of every use are replaced, each use in its own way and different spans possibly by the same one, the code, the messages and the errors are the same with their spans replaced in the same way. In particular a use further down in a file comes to the same tokens and the same messages, further down, and what is at the call site stays there.", "quantifier": "all sequences of uses, all inputs, all replacements of spans that keep the call site, all functions of syn, heck and std that commute with the replacement", "why_tests_cant": "Spans of generated code cannot be observed in a unit test, and no test can place the same use everywhere.", "anchors": ["src/lib.rs", "src/interpreter/core.rs", "src/expand/raw_ast.rs", "src/substitution/alias_substitution_visitor.rs", "src/parse/raw_ast.rs", "src/parse/compose_item_spec.rs", "src/util/deprecation.rs"]}
{"id": "C90", "title": "Moving a use moves what it comes to, invisible groups included", "statement": "On input with invisible groups, as other macros leave it, spans are handed on and never looked at either: if the spans of the tokens and invisible groups of every use are replaced, each use in its own way, the code, the messages and the errors are the same with their spans replaced in the same way. If one use among others is moved, only its outcome is moved.", "quantifier": "all sequences of uses, all inputs with invisible groups nested in any way, all replacements of spans that keep the call site, all behaviours of the other crates that hand spans on", "why_tests_cant": "Tests see the spans of a few inputs at the places where they stand; they cannot move all inputs in all ways, and invisible groups appear only in the output of other macros.", "anchors": ["src/util/terminated.rs", "src/parse/value.rs", "src/parse/alias_spec.rs", "src/parse/loop_spec_item.rs", "src/parse/call.rs"]}
{"id": "C91", "title": "Identifiers of the item that are no aliases, and literals that are no strings, are passed on unread", "statement": "Renaming identifiers in the item of a use and replacing literals other than strings there changes its outcome in the same way and in no other, provided that the aliases of the use, the identifiers and literals their values are made of and the words of the Rust grammar stay. Each use may be renamed in its own way; if one use among others is renamed, only its own outcome changes. Renaming an alias, or an identifier that a value brings in, does not have this effect.", "quantifier": "all sequences of uses, all items, all renamings that spare the aliases and what they stand for, all behaviours of the other crates that read renamed tokens alike", "why_tests_cant": "Tests run on items with particular names; that no other name would be treated differently is a statement about infinitely many names and items, including those that look like aliases, hashes or keywords of the macro.", "anchors": ["src/substitution/substitute_idents.rs", "src/substitution/alias_substitution_visitor.rs", "src/substitution/stream_visitor.rs", "src/util/deprecation.rs", "src/interpreter/core.rs"]}
{"id": "C92", "title": "Functions that are not called do not matter", "statement": "Take any other table of functions in place of the one in funcs.rs. As long as the functions whose names stand directly before parentheses in the definitions of a use have the same overloads in both tables, the use comes to the same: functions may be added, removed and reordered, before and after the others, although this changes the ids of all the others and of the nodes. A function that is named matters: adding one changes what a call of a Rust function of that name means.", "quantifier": "all pairs of tables with any number of functions and overloads, all sequences of uses, all behaviours of the other crates", "why_tests_cant": "There is one table in the code; that no use depends on the rest of the table, or on the ids that the rest takes from the counter, is a statement about tables that do not exist yet.", "anchors": ["src/funcs.rs", "src/core/environment/core.rs", "src/core/environment/init_funcs.rs", "src/parse/call.rs", "src/parse/expr.rs", "src/resolve/call.rs"]}
{"id": "C93", "title": "Overloads that no call can take do not matter", "statement": "If the functions a use calls are given further overloads, anywhere among their overloads, and each of them has another number of parameters than every call of the function in the use has arguments (a variadic one: more parameters; not a raw one), then the use comes to the same. An overload that takes the number of arguments may be preferred to those that are there.", "quantifier": "all pairs of tables, all ways to insert overloads, all sequences of uses, all behaviours of the other crates", "why_tests_cant": "Overload resolution compares costs, variadicity, arity and ids; that ids shifted by refused overloads never change the choice concerns all tables, all calls and all depths of nesting.", "anchors": ["src/resolve/call.rs", "src/core/type_.rs", "src/core/environment/init_funcs.rs", "src/funcs.rs"]}
{"id": "C94", "title": "Overloads that no call takes in the end do not matter", "statement": "If the functions a use calls are given further overloads, anywhere among their overloads, which may accept the arguments of its calls, and with them no call of the use is resolved to an added one, then the use comes to the same as without them. An expression that is resolved without the added overloads is resolved with them, at no higher cost. A use of several definitions may stop compiling, since a definition may get another type.", "quantifier": "all pairs of tables, all ways to insert overloads, all sequences of uses, all expressions and scopes ready for them, all behaviours of the other crates", "why_tests_cant": "Added overloads take part in the resolution of nested calls and change the costs by which the enclosing calls are chosen; that they cannot change the outcome without being taken concerns all tables and all nestings.", "anchors": ["src/resolve/call.rs", "src/resolve/value.rs", "src/core/type_.rs", "src/core/environment/init_funcs.rs"]}
{"id": "C95", "title": "A placeholder shows the text of the code that the alias stands for", "statement": "The text put for `%a%` in a string is the text of the code that is put for `a` outside of strings, so that different code is shown differently; only of string literals the quotes are left out.", "quantifier": "for every alias, every value and every path", "why_tests_cant": "The tests format identifiers and a few paths; what is shown of paths with arguments at any of their names, of leading colons, of types, expressions and tokens concerns all of them.", "anchors": ["src/substitution/format_string.rs: format_value, format_string", "src/substitution/substitute_idents.rs", "src/ast/value.rs"]}
{"id": "C96", "title": "normalize2 is an evaluated variant of normalize", "statement": "`normalize2(v)` is what `normalize` makes of the tokens of the value of v: `normalize2(raw(ts))` and `normalize(ts)` are the same in every definition, so are the two on values that are no aliases, and of an alias normalize2 makes what normalize makes of the code it stands for, while normalize itself looks at no alias; any value becomes a valid identifier.", "quantifier": "for every token sequence, every value, and any definitions before and after", "why_tests_cant": "The tests normalize six values with each function and never compare the two; the claim is about all token sequences and values, in all places among any definitions.", "anchors": ["src/core/environment/init_funcs.rs: normalize, normalize2", "src/funcs.rs: normalize", "src/resolve/call.rs", "src/eval/call.rs", "README.md: Functions, Token manipulation", "CHANGELOG.md: v0.3.0", "adr/0001-code-repetition.md"]}
{"id": "C97", "title": "Migrating from semicolons to commas takes away the warning and nothing else", "statement": "If every semicolon separator of a macro's input is replaced with a comma, the input is read as the same loops, definitions and block; the macro yields the same code without the deprecation attributes, or fails as it did; and all the other uses of the compilation yield what they yielded.", "quantifier": "for every one of the three macros, any loops, any number of definitions by calls, any body, with or without a separator at the end, at any place among any uses", "why_tests_cant": "The tests have two inputs with semicolons and check that they compile; the claim compares two inputs of any length, and their effect on the warnings of all other uses.", "anchors": ["README.md: Migration guides, Semicolon alias separator", "src/parse/compose_item_spec.rs", "src/parse/raw_ast.rs", "src/util/terminated.rs", "src/util/deprecation.rs: add_semicolon_separator_warning, emit", "src/expand/core.rs"]}
{"id": "C98", "title": "Brackets no longer concatenate", "statement": "A definition in the removed bracket form, `alias = [arg1, func(arg2), ..]`, is never read as a concatenation: the brackets are read as code, no function in them is called, the alias stands for the code in all its uses, and it cannot name an item, so a use that relies on the old form yields no code.", "quantifier": "for every content of the brackets, whatever follows them, any other definitions, any items of that name among any others", "why_tests_cant": "The tests have no definition in the old form left; the claim is about every content of the brackets and every reading the external parsers may give it.", "anchors": ["README.md: Migration guides, Bracket-based alias syntax", "src/parse/expr.rs", "src/parse/value.rs", "src/eval/value.rs", "src/substitution/substitute_idents.rs", "src/substitution/alias_substitution_visitor.rs"]}
{"id": "C99", "title": "Any text can be written in a string", "statement": "Percent signs can be escaped: every text is what some string literal becomes, whatever the aliases are, namely the text with one percent sign more in each run, also through nested macros. A text with values of aliases in it can be written in the same way exactly if each value is at the beginning or after a character of the text that is no percent sign; for other texts every string says something else for some values.", "quantifier": "for every text, every sequence of texts and values, every string, every substitution", "why_tests_cant": "The test of the escape has one isolated `%%`. That a text cannot be written is a statement about all strings.", "anchors": ["CHANGELOG.md: escape percent signs", "src/substitution/format_string.rs: format_string", "src/interpreter/tests/string_formatting.rs: escape_percent"]}
{"id": "C100", "title": "What came out can be put in again", "statement": "A block that the substitution makes is fit for it: all its nodes can be parsed from their tokens and nothing in it would be lost. Put in again, it comes out as its tokens with the second aliases replaced; with definitions that it does not mention nothing fails and only the spelling of strings can change. In particular the same definitions change nothing the second time if no value mentions an alias and no string is left with a percent sign.", "quantifier": "for every block, nested to any depth, every two substitutions, all parsers that print what they read (and, where success is claimed, do not look into strings)", "why_tests_cant": "The tests expand each input once. Stability of all outputs is about every item the visitor can produce.", "anchors": ["src/substitution/alias_substitution_visitor.rs: AliasSubstitutionVisitor", "src/substitution/substitute_idents.rs: substitute_idents"]}
{"id": "C101", "title": "Strings and identifiers are not taken for each other", "statement": "An alias has a value of the kind of its definition, so functions of strings make strings. concat of an identifier with identifiers and strings, at least one string among them, is an evaluation error. No use gives code in which an alias that stands for a string or an integer was the name of a struct, enum, union, trait, module or function, in any round of its loops. to_ident of a string that is an identifier means that identifier, and to_str of an identifier that string, wherever it stands in a definition, unless the identifier is an alias.", "quantifier": "for every list of definitions of any length with calls nested to any depth (C70's independent ones), every use and round, all texts, and all external functions for which a quotation mark ends a name", "why_tests_cant": "The changelog announces the change and the tests try single calls. That no mixture, however nested, and no item lets a string pass for a name is about all definitions and blocks.", "anchors": ["CHANGELOG.md: v0.3.0 Removed", "src/core/environment/init_funcs.rs: init_funcs (concat, to_ident, to_str)", "src/ast/value.rs: Value", "src/substitution/alias_substitution_visitor.rs: AliasSubstitutionVisitor"]}
{"id": "C102", "title": "Stacked attributes", "statement": "An item with a compose_item attribute below another one: the upper one yields, once per round and in order, the item with the lower attribute, the values of the round put into both; the attribute itself stays as long as compose_item is no alias. If the lower attribute mentions no alias of the upper, the upper definitions no loop variable of the lower, and the values are inert (none is an alias of the lower, no percent signs), then what the lower attributes yield, one after the other, is exactly what one attribute with the loops and definitions of both yields. Without the last condition it does not hold: a value that is an alias of the lower attribute is replaced again.", "quantifier": "for all headers, items, numbers of loops and rounds, places of the uses, external functions and parsers (faithful, covering)", "why_tests_cant": "The claim relates a two-step expansion with any number of rounds to a single use, for every header and every item; no test of the project stacks attributes.", "anchors": ["src/lib.rs: compose_item", "src/interpreter/core.rs: Interpreter::execute", "src/substitution/alias_substitution_visitor.rs", "src/ast/raw_ast.rs"]}
{"id": "C103", "title": "Building on the values of the use around", "statement": "Definitions that come last can be evaluated alone if the values of the definitions before them are put in the place of their names (and raw and normalize are not given such a name, and no value is itself one of the later names). So a compose! in the block of another use, or a compose_item below another, whose loops name loop variables of the outer use and whose definitions name any of its aliases, yields round by round exactly what one use with the loops and definitions of both yields. It does not hold if an inner loop names a definition of the outer use, or if raw or normalize is given an outer name.", "quantifier": "for all headers, blocks and items, numbers of loops and rounds, places of the uses, external functions and parsers (faithful, covering)", "why_tests_cant": "The claim relates a two-step expansion with any number of rounds to a single use, at every nesting depth of calls; overload choices in the inner use depend on types that the outer use inferred.", "anchors": ["src/lib.rs: compose_item", "src/resolve/value.rs", "src/resolve/call.rs", "src/eval/value.rs", "src/interpreter/core.rs: Interpreter::execute", "src/substitution/alias_substitution_visitor.rs"]}
{"id": "C104", "title": "Headers with other identifiers", "statement": "If other identifiers are written in the whole of a use (header and block; the same ones wherever they occur; no keyword and no function name is touched or arises; two may become one), it is read as the same loops, definitions and block with the other identifiers in them, or fails alike. On the Rust instance this needs nothing further of the parsers. Hence for aliases that stand for identifiers: a compose_item below another, or a compose! in the block of another, that builds on their values yields exactly what one use with the loops and definitions of both yields, with no assumption on how the generated inner uses are read. It fails if the inner header mentions an outer alias in an expression that is more than a name, or if an outer alias is the name of a function.", "quantifier": "for all token lists, renamings, headers, blocks and items, numbers of loops and rounds, external functions and parsers that treat identifiers alike (the Rust instance among them)", "why_tests_cant": "The claim relates two parses for every token list and every renaming, and whole compilations of two nested uses to one; tests see single inputs.", "anchors": ["src/parse/raw_ast.rs: parse", "src/parse/compose_item_spec.rs: parse", "src/parse/loop_spec_item.rs: parse", "src/parse/alias_spec.rs: parse", "src/parse/value.rs: parse", "src/parse/call.rs: parse", "src/parse/tuple.rs: parse", "src/substitution/substitute_idents.rs: substitute_idents"]}
{"id": "C105", "title": "Aliases may be given other names", "statement": "If in the whole source of a use (loops, tuple patterns, definitions, block or item) identifiers are given other names, one to one, sparing keywords and function names, the use yields the same code, provided that every renamed identifier that occurs as a value is an alias defined before that place, every renamed identifier of the code is an alias of the round, tokens taken as they are and expressions of more than one token hold no renamed identifier, and the placeholders of strings keep their names. In particular no capture occurs, and the order, the number and the shape of the rounds do not depend on names. Each proviso is needed: an alias mentioned before its definition, inside an expression, in an argument of normalize, or in a placeholder is not renamed along.", "quantifier": "for all uses of the three macros, one-to-one renamings, numbers of loops, rounds and definitions, expressions, values, blocks, external functions and parsers that treat identifiers alike (the Rust instance among them, for any exchanged names)", "why_tests_cant": "The claim relates every use to every renamed one; a test compares a single pair of programs, and hygiene failures only show for particular combinations of names.", "anchors": ["src/parse/raw_ast.rs: parse", "src/expand/raw_ast.rs: expand", "src/resolve/alias_spec.rs: resolve", "src/eval/value.rs: eval", "src/substitution/substitute_idents.rs: substitute_idents", "src/parse/loop_spec_item.rs: parse"]}
{"id": "C106", "title": "A use with other names for its aliases fails alike", "statement": "Under the renaming and the provisos of C105, applied to every part of the block that is parsed again, and if no value of an alias holds a renamed identifier, the renamed use comes to the same as the original one whatever that is: the same code with the same deprecation warnings, the same compile error, or the same panic. The only difference is that a redefinition error and a substitution error name the renamed alias. An input that is a syntax error stays one. Without injectivity this fails: two aliases that become one turn code into a redefinition error.", "quantifier": "for all uses of the three macros among any other uses, one-to-one renamings, numbers of loops, rounds and definitions, blocks, values, external functions and parsers that treat identifiers alike (the Rust instance among them, for any exchanged names)", "why_tests_cant": "The claim relates every use, failing ones included, to every renamed one; a test compares a single pair of programs with one failure.", "anchors": ["src/substitution/substitute_idents.rs: substitute_idents", "src/substitution/alias_substitution_visitor.rs: AliasSubstitutionVisitor", "src/resolve/alias_spec.rs: resolve", "src/eval/value.rs: eval", "src/expand/raw_ast.rs: expand"]}
{"id": "C107", "title": "What an alias stands for may be written out in the code", "statement": "If in the block of a use some occurrences of aliases, at any depth, are written out as the tokens of their values, and the definitions stay, both uses yield the same code, warnings included, whenever both yield code. This requires that the tokens written out come out of substitution as they are, which holds of all values that mention no alias and hold no string. It fails for a value that mentions another alias, which is replaced when written out and not when inserted, and for a string with a placeholder. Nothing is put around an inserted value: an expression is inserted without parentheses.", "quantifier": "for all uses of the three macros among any other uses, loops, rounds, definitions, blocks, choices of occurrences, external functions and parsers", "why_tests_cant": "The claim relates every use to every way of writing out its aliases; a test compares one pair.", "anchors": ["src/substitution/substitute_idents.rs: visit_ident, visit_literal", "src/substitution/stream_visitor.rs: walk", "src/ast/value.rs: to_tokens", "src/expand/raw_ast.rs: expand"]}
{"id": "C108", "title": "A definition may be replaced by the value it comes to", "statement": "If in the definitions of a use some are replaced by the values they come to after the definitions before them, every alias keeps its value, errors of other definitions stay the same, and the use comes to the same outcome, code or failure. The value must not be the name of an alias defined before it, which would be replaced again, and it must be read as the same kind of value: a name made a type is written like the name but read as an identifier. In particular all definitions may be replaced by the values of their aliases, and the values that loops take may be written out in the same way. If the values have the spans that the definitions give them, spans and the places of errors do not change either.", "quantifier": "for all uses of the three macros among any other uses, loops, rounds, definitions, choices of definitions to replace, seeds, external functions and parsers", "why_tests_cant": "The claim relates every use to all uses that differ in precomputed definitions, including those that fail; a test compares one pair.", "anchors": ["src/eval/value.rs: eval", "src/eval/call.rs: eval", "src/eval/alias_spec_item.rs: eval", "src/resolve/call.rs: resolve_arg, resolve_call_for_func", "src/interpreter/core.rs: make_substitutions"]}
{"id": "C109", "title": "Two uses may be applied in either order", "statement": "If one use is applied to what another one generated, the code consists of one piece for every two rounds, in which the aliases of both have their values. Applied in the other order the two uses yield the same pieces, in the order of the other nesting of the loops; if one of them has no loops, the same code. One use with the loops and definitions of both, if the second mention nothing of the first, generates the same as the second applied before the first. Provided that they share no alias, that the values of neither contain aliases of the other or percent signs, and that the strings of the code have no doubled percent signs.", "quantifier": "for all pairs of uses of the three macros among any other uses, loops, rounds, definitions, code, seeds, external functions and parsers for which substitution and parsing fit together", "why_tests_cant": "The claim compares two orders of expansion for all pairs of headers and all code; a test compares one pair on one item.", "anchors": ["src/substitution/alias_substitution_visitor.rs: AliasSubstitutionVisitor", "src/substitution/format_string.rs: format_string", "src/interpreter/core.rs: execute", "src/lib.rs: compose, compose_item"]}
{"id": "C110", "title": "Names composed of different identifiers are different", "statement": "Two calls of concat on identifiers that differ in exactly one argument compose different identifiers. So do calls that differ in two arguments with a separator between them, if the first of them does not contain the character the separator begins with. Hence in a use with a loop over different identifiers, an alias defined as concat of the loop variable and of identifiers that are no aliases has another name in every round: the concatenation of the parts. The same holds behind an identifier for loop values of any kind whose texts are made of the characters of identifiers, such as integers, if the texts are different. With two loops over different identifiers there is a round for every pair, and concat of the two variables with a separator between them has another name in each of them, if the values of the first loop do not contain the character the separator begins with and the name of the first variable is not among the values of the second. Without the provisos names can coincide: with two loop variables side by side or separated by an underscore that they contain, or after a case conversion.", "quantifier": "for all uses of the three macros with such a loop among any other uses, identifiers, other definitions, code, seeds, external functions and parsers for which substitution and parsing fit together", "why_tests_cant": "Whether names collide depends on all the values of a loop and all ways to split a name into parts; a test checks one list.", "anchors": ["src/funcs.rs: concat", "src/core/environment/init_funcs.rs: concat", "src/expand/raw_ast.rs: expand", "src/interpreter/core.rs: execute"]}
{"id": "C111", "title": "Conversions may be repeated", "statement": "To apply one of the functions to_ident, to_path, to_type, to_expr, to_str, to_int and to_tokens to its own result gives the result again, so that in a use an alias that is converted again has the same value in every round. A conversion to a path, a type, an expression or tokens before another conversion may be left out, if the value holds no invisible groups. An identifier converted to a string and back is the same identifier. A string converted to an identifier and back need not be the same: spaces around it are lost; and to_int of a string and to_str of an integer are errors.", "quantifier": "for all values, all uses of the three macros among any other uses, other definitions, code, seeds, external functions and parsers that read what they printed as the same", "why_tests_cant": "There are seven conversions with all values and parsers; the tests convert a few values once.", "anchors": ["src/ast/value.rs: try_cast", "src/core/environment/init_funcs.rs: to_ident, to_str, to_int, to_path, to_type, to_expr, to_tokens", "src/interpreter/core.rs: execute"]}
