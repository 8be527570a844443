{
 "C01": {
  "note": "Iterator and expansion both equal the nested-loop specification, for any number of sources and values."
 },
 "C02": {
  "note": ""
 },
 "C03": {
  "status": "proved",
  "note": "Exact at every point reachable through next. The refuted theorem covers reset with no sources, which no caller in the crate reaches."
 },
 "C04": {
  "note": ""
 },
 "C05": {
  "note": "False as stated: shapes with the same level-order kinds are accepted and values bound at other positions. Exact acceptance condition proved; the stated property proved for alias tuples without nesting."
 },
 "C06": {
  "note": "For the built-in function table. The redefinition error is characterised exactly; distinct names never give it."
 },
 "C07": {
  "note": ""
 },
 "C08": {
  "note": "resolve and eval are proved equal to an id-free elaboration semantics; the recorded overload is the unique best one; SignatureError iff none accepts; overload order is irrelevant."
 },
 "C09": {
  "note": ""
 },
 "C10": {
  "note": ""
 },
 "C11": {
  "note": "Includes the cost-5 coercion from and to raw tokens that the README's table omits."
 },
 "C12": {
  "note": "Holds without any assumption on the external parsers."
 },
 "C13": {
  "note": ""
 },
 "C14": {
  "note": "False as stated, for the README's own examples. Proved: the exact outcome for identifier-first compositions, and that converting the first argument with to_tokens makes the conversions work."
 },
 "C35": {
  "note": "For hash of a plain value or alias."
 },
 "C36": {
  "note": ""
 },
 "C17": {
  "note": "False as stated (a__ -> a_ -> a). Proved: idempotence exactly when the output has no trailing underscore to lose."
 },
 "C20": {
  "note": "False as stated: a run of n percent signs gives n-1. The exact behaviour is proved for isolated runs."
 },
 "C38": {
  "note": "False as stated: expr, raw, type and variadic types cannot be read back. Exactly the other five round-trip."
 },
 "C21": {
  "note": "At the level of token streams, which is what the walker works on; the item visitor is C25/C26."
 },
 "C22": {
  "note": ""
 },
 "C23": {
  "note": "Proved for every visitor that does not replace a group's contents on entering it, with a bound on the input alone; for visitors that do, divergence is proved."
 },
 "C24": {
  "note": "The exact outcome is proved for every stream and parser. The no-panic part holds if the given stream itself parses and the parser does not look into string literals; a witness shows the panic otherwise."
 },
 "C25": {
  "note": "False as stated: where clauses of structs, enums, unions, traits and impls are dropped, inner attributes panic, and strings are respelled. These are the only differences: with parsers that print what they read and do not look into strings (the Rust instance: rust_faithful, rust_indifferent), every item without inner attributes comes out as its tokens without where clauses and with strings respelled (C25_respelled), and no item with an inner attribute comes out (C25_inner_attributes). C25_unchanged_partial needs no assumption about parsers beyond the item's own nodes."
 },
 "C26": {
  "note": "Assumes that syn's parsers print back the tokens parsed and that the keywords of items are not alias names. Where clauses are dropped (C25)."
 },
 "C27": {
  "note": "For every history of invocations from a fresh thread. The parser is represented by what it does to the service and its result; panics unwind through the scopes."
 },
 "C28": {
  "note": "On the forest of nodes that syn's traversal meets, in its order."
 },
 "C29": {
  "note": "Refuted: the thread-local cell keeps the first macro's prefix. Holds when a thread uses one macro only; C27_own_warnings_only gives the exact prefix otherwise."
 },
 "C33": {
  "status": "partial",
  "note": "All outputs in order or one error. The refuted theorem: expansion of all combinations comes first, so its error hides an earlier combination's resolve or evaluation error; C33_first_error gives the exact order."
 },
 "C34": {
  "note": "Each round's output equals that of the same round alone, for any patterns, values, spec, block and oracles."
 },
 "C32": {
  "note": "The exact law is proved for all positions (C32_counts_leaves), with symmetry for all pairs. Zero-iff and additivity hold for positions of one group; refuted when the earlier position is inside a group and the later one outside. Every call in the crate compares positions of one group."
 },
 "C39": {
  "note": "Atomic requests in any interleaving; the bound 2^64 is sharp."
 },
 "C30": {
  "note": "False as stated: ordinary values separated by semicolons are rejected by compose! and swallowed by #[compose_item], which also accepts a list ending in both separators. Proved: acceptance is exactly being a list with one kind of separator, as the value parser delimits the values; lists of built-in calls (either separator) and of values that end at the separator are accepted with their items in order; mixing is rejected, the trailing separator included. Missing: ordinary values with semicolons, where it is false."
 },
 "C31": {
  "note": "The classification itself is proved without exception, for all external parsers. The refuted theorem is about the last clause: where syn leaves tokens of a group unread ((b * c) is taken for the type (b)), the alias value is rejected and call arguments are silently dropped."
 },
 "C37": {
  "note": "For any function table and, from source, for the built-in one."
 },
 "C41": {
  "note": ""
 },
 "C42": {
  "note": "Assumes that the external parsers' nodes print what was parsed and that no alias is called like an item keyword (only union, auto and default are possible). Where clauses are dropped (C25); SubstitutionErrors (C24) and the two panics of the visitor come on top."
 },
 "C43": {
  "note": "The flag is characterised by C30_lists."
 },
 "C44": {
  "note": "Same assumptions as C42; with them the outcome of a use is determined completely (C44_use)."
 },
 "C45": {
  "note": "A use of hash depends on the seed, i.e. on how many ids were drawn before it: C45_sources_suffice_refuted. That refutes only the unrestricted reading; the statement of C45 itself is proved.",
  "status": "proved"
 },
 "C46": {
  "note": "Proved for plain values, and for calls that have one meaning whatever type is wanted of them (settled); a grammar of such calls, nested to any depth, is given (steady). C70_naming proves it also for calls with conversions in independent definitions. Refuted for other calls (the wanted type takes part in choosing the overload of an inline call but not of a named one: concat(x, hash(\"s\"))), for identifiers that are defined as aliases in between, and for a call that mentions its own name.",
  "status": "partial"
 },
 "C47": {
  "note": "For the code: if both succeed. Intermediate stages of the substitution still contain the old name, so an external parser could tell them apart."
 },
 "C48": {
  "note": "The arguments are plain values or aliases; nested calls are elaborated by C08/C13 (SpecElab)."
 },
 "C49": {
  "note": ""
 },
 "C50": {
  "note": "The last sentence is refuted: strings are shown without escapes (C50_quoted_call_refuted). It holds, for name and shown arguments, when in everything shown parentheses match and strings end (C50_calls). The others are proved."
 },
 "C51": {
  "note": "Proved for all definitions whose weight (read off the source) is below 2^32, for any arithmetic that is right below a bound (C51_right), and for whole compilations: the checked and the wrapping pipeline give the same outputs as the exact one if 5 * tokens * 2^nesting of what is written outside of braces is below 2^32 (C51_uses). Refuted in general: thirty nested concat calls overflow, a debug build panics (C51_overflow_refuted, C51_uses_refuted) and a release build can choose another overload (C51_choice_refuted)."
 },
 "C52": {
  "note": "Work is the number of calls of Expr::resolve, counted by a copy of the resolver that C52_same shows to have the same results. C52_uses bounds the work of every copy of the block by 8 * tokens * 7^nesting of the source."
 },
 "C53": {
  "note": "Shown for commas. The conditions on the external parsers (they read no further than a comma, blocks are groups of braces) are met by the concrete instance in C53_example. C53_any_header_refuted is the exception: a header with two separators at its end.",
  "status": "proved"
 },
 "C54": {
  "note": ""
 },
 "C55": {
  "note": "The rounds are proved equivalent to inputs without loops for every parsed input. The text form is proved for one loop over values that are not tuples, each value judged in its place (C55_source), and for any number of loops with any patterns over values that end at any comma (C55_loops, C55_loops_misfit, both macros). Unrolling one of several loops fails, with witnesses (C55_outer_refuted, C55_inner_refuted).",
  "status": "proved"
 },
 "C56": {
  "note": "The span of the whole group on its delimiters is stated as C56_delimiters_refuted (a stream without aliases does not come back as it was).",
  "status": "proved"
 },
 "C57": {
  "note": "That every identifier made from input has a place in the input is false: C57_placeless_refuted.",
  "status": "proved"
 },
 "C58": {
  "note": "The place is one of the listed; for type errors the exact token is up to syn's error."
 },
 "C59": {
  "note": "Ids are compared after erasing them; their values are C39 and C45. syn's parsers for values and blocks are parameters."
 },
 "C60": {
  "note": "Texts of syn and of parse_str are oracles (syn_error_text, str_error_text). Internal errors carry no text in the model; the theorem shows that none occurs."
 },
 "C61": {
  "note": "C61_without_spans by erasing every function of the spanned model; the instance of the hypotheses exists for any plain parsers."
 },
 "C62": {
  "note": "Proved for each use separately, so also between uses; the places of the three .stderr tests are examples."
 },
 "C63": {
  "note": "The error of Block::parse, and the token that syn reports when a group is not read to its end, are the parser oracle's."
 },
 "C64": {
  "note": "Exact equality of results; misfits characterised by a relation that is exhaustive and excludes rounds."
 },
 "C65": {
  "note": "Assumes of syn, besides the assumptions of C61 and C62, that identifiers of a reparsed block keep their places or get call_site; then the place may also be call_site."
 },
 "C66": {
  "note": "C66_definitions is about the values, C66_use about whole uses; the mention in a block is by the parts of C44, so where clauses do not count (C25). C66_failing_refuted shows that failing definitions are not ignored. The refuted theorems are part of the statement, which is proved in full.",
  "status": "proved"
 },
 "C67": {
  "note": "No hypothesis about reparsing: the lookups are the same. The errors differ in general (C67_errors_refuted). The refuted theorems are part of the statement, which is proved in full.",
  "status": "proved"
 },
 "C68": {
  "note": "Stated on three uses of the same run, whose blocks are b1 ++ b2, b1 and b2. The refuted theorems are part of the statement, which is proved in full.",
  "status": "proved"
 },
 "C69": {
  "note": "Reading through is a hypothesis on syn's parsers at the positions of the input (transparent_at), satisfied by an instance made from any parsers (C69_instance). The conditions on empty groups and commas are needed (C69_empty_refuted, C69_comma_refuted). The refuted theorems are part of the statement, which is proved in full.",
  "status": "proved"
 },
 "C70": {
  "note": "Independence is a decidable check on types and costs (independent_items). Refuted without it for hash of a string (C70_hash_refuted) and for costly first arguments of concat (C70_cost_refuted); flattening is refuted for mixed kinds (C70_flat_kinds_refuted). Costs are unbounded numbers as in Resolve.v; overflow of u32 is C51. The refuted theorems are part of the statement, which is proved in full.",
  "status": "proved"
 },
 "C71": {
  "note": "C71_any_schedule and C71_deterministic for all schedules without wrap-around, C71_finishes: every thread is done after as many turns as it draws; C71_hash_refuted and C71_placement_refuted: hashes depend on the schedule, warnings on the thread's first macro. The draws are an explicit machine (Threads.v); thread-local work between two draws is one step.",
  "status": "proved"
 },
 "C72": {
  "note": "C72_split and C72_output_split: the first loop; C72_split_anywhere, C72_shuffled: permutations of rounds, failures included; C72_exchange and C72_use: unrelated loops; C72_exchange_refuted and C72_report_refuted show the limits.",
  "status": "proved"
 },
 "C73": {
  "note": "C73_substitutions: two substitutions; C73_nested: both steps against the flat use; the conditions of C73_nested are satisfied in C73_example; C73_strings_refuted, C73_values_refuted, C73_header_refuted show that they are needed.",
  "status": "proved"
 },
 "C74": {
  "note": "C74_twice_refuted shows what the round trips leave out. heck is modelled on ASCII text (RustText).",
  "status": "proved"
 },
 "C75": {
  "note": "Refuted (C75_accepted_refuted): upper, lower and concat of identifiers always panic (C75_cased, C75_composed); what the other functions make of them is C75_spellings, C75_normalized and C75_mixed, without a panic."
 },
 "C76": {
  "note": "The log is that of a block whose substitution succeeds; how a failing one ends is C24 and C44. A string literal is also parsed by itself, in constant time, which is not logged."
 },
 "C77": {
  "note": "About the instance with std's hasher (RustText), written from the published algorithm and checked against the hashes in the repository's tests; str and u64 hash as std documents: bytes in UTF-8 followed by 255, and eight bytes in little endian."
 },
 "C78": {
  "note": "The block is counted without the where clauses that are dropped (C25); aliases may be named like keywords of items, which stay (C83)."
 },
 "C79": {
  "note": "Counts rounds of TerminatedValue::parse on a copy of the parser with a counter, tied to the parser by C79_same. What syn does in an attempt is not counted."
 },
 "C80": {
  "note": "Composed means accepted by Ident::new or parsed from a string by syn. Aliases may be named like keywords of items (C83)."
 },
 "C81": {
  "note": "Groups are compared by the span of the whole. How many attributes are added and where is pinned by C61 with C42. C81_reading says of the instance that a block is read with the spans it was written with."
 },
 "C82": {
  "note": "C82_uses for any functions with the laws of sees_through, C82_bindings for the values of the aliases, C82_dropping and C82_keeping for two instances without further conditions on what was parsed, C82_blind_refuted: needed that the functions see through the groups. The conditions are those of C69, whose counterexamples apply. The refuted theorem is part of the statement, which is proved in full.",
  "status": "proved"
 },
 "C83": {
  "note": "C83_use is C44_use without its condition on the aliases; C83_plain says when both agree and C83_everywhere_refuted that they do not always (an alias `union` is not replaced in `union U {..}`). The refuted theorem is part of the statement, which is proved in full. C83_span_code is C81_code without its condition on the aliases.",
  "status": "proved"
 },
 "C84": {
  "note": "No law of syn is assumed for the first two theorems: nodes and literals are related to syn's answer for the tokens that begin there. C84_exactly and C84_exactly_attribute join them with the grammar of C59 to an equivalence, under the assumption that syn's parsers do not look at spans.",
  "status": "proved"
 },
 "C85": {
  "note": "The other hash maps of the crate are only looked up. C85_duplicates shows that the order would matter if a name could be defined twice; C06 says that it cannot.",
  "status": "proved"
 },
 "C86": {
  "note": "The parser with spans on positions with invisible groups; the places of errors are syn's, in the trusted base."
 },
 "C87": {
  "note": "Parsing only; C86 has the whole of both macros. What syn says where there is no block is left to syn. Where groups are empty or hold commas the parses differ (C69)."
 },
 "C88": {
  "note": "Needs for the comparison that no invisible group is empty or holds a comma at its top (see C69)."
 },
 "C89": {
  "note": "The laws (SpecSpanShift.moving) say that syn, given tokens with replaced spans, parses the same things with the spans replaced and says the same; they are assumptions about syn, shown of the instances made from parsers without spans."
 },
 "C90": {
  "note": "For the parser of SpanInvisible.v; the law [moving] is that of C89, and parsers that read through invisible groups inherit it."
 },
 "C91": {
  "note": "The law (SpecRename.renames) about syn is proved of the Rust instance for injective renamings that spare the words of the grammar and strings. C91_block needs the parsers not to look from the definitions into the block (C53)."
 },
 "C92": {
  "note": "expand_uses_with is compose_core with the environment made from the given table and with has_func asked of it; C92_own_table shows that it is the model of the macros for funcs.rs. ExtendParse shows that every parser asks has_func only for identifiers directly before parentheses and that the names of the calls in the result are among them; ExtendProofs that elaboration compares ids of overloads of one function only, so that shifting them per function changes nothing. The seed of the environment is a parameter of the use: if it is another (the counter is process-wide), C92_functions_added asks that the use hashes nothing."
 },
 "C93": {
  "note": "The numbers of arguments are those of the calls in what is parsed (arities), whose parse does not depend on the added overloads. C93_covers_C92: functions that are not called may be added as well."
 },
 "C94": {
  "note": "Which overloads are taken is read off what the resolve phase records with the larger table (none_taken), definition by definition."
 },
 "C95": {
  "note": "Refuted for paths: only the names are shown, so Vec<u8>, Vec<u16> and ::Vec<u8> are all shown as Vec (C95_path is exact for the paths of the Rust instance). C95_as_printed_partial: true of all values that are neither paths nor strings."
 },
 "C96": {
  "note": "Refuted for strings and integers (C96_strings_refuted), of which normalize2 takes the text and the digits and normalize the spelling, and for values without letters or digits and values that spell keywords (C96_any_value_refuted). C96_values_partial leaves out strings and integers, for which C96_literals says when the two agree. C96_loop_variable: the example of adr/0001 makes the same name in each round.",
  "status": "partial"
 },
 "C97": {
  "note": "Proved for definitions whose values are read alone whatever follows them, which C97_calls shows of all calls of known functions; that is what semicolons could separate. C97_any_value_refuted: for plain values the advice fails, since a = x; is refused or takes the rest of the attribute as its value."
 },
 "C98": {
  "note": "C98_source goes from the source of a use to its output: items and functions of the alias's name are refused, for parsers of signatures that refuse a bracket after fn, as the Rust instance is proved to do. C98_refused_refuted: where the alias is used as an expression the old form is accepted silently, as an array."
 },
 "C99": {
  "note": "C99_unwritable is about strings for all values at once; for particular values another string may happen to say the same."
 },
 "C100": {
  "note": "About the visitor; that the compiler's parser reads the printed block as that block is not claimed for all blocks (the example goes through the whole macro)."
 },
 "C101": {
  "note": "The changelog's advice to convert with to_ident is refuted for texts that are no identifiers themselves: concat(x, \"1\") becomes concat(x, 1). hash of a string is the exception of C70: where an identifier is wanted it is one.",
  "status": "proved"
 },
 "C102": {
  "note": "C102_stacked; C102_example meets all hypotheses on the Rust instance; C102_values: the lower attribute may build on values of the upper; C102_order_refuted shows that the condition on values is needed.",
  "status": "proved"
 },
 "C103": {
  "note": "C103_definitions, C103_nested, C103_stacked; C103_example meets all hypotheses on the Rust instance; C103_loops_refuted and C103_raw_refuted show that the conditions are needed.",
  "status": "proved"
 },
 "C104": {
  "note": "C104_function_like, C104_attribute (reading), C104_stacked, C104_nested (whole uses), C104_rust, C104_rust_reads (the laws hold of the Rust instance); examples meet all hypotheses; C104_expressions_refuted and C104_functions_refuted show that the conditions are needed.",
  "status": "proved"
 },
 "C105": {
  "note": "The full claim with its provisos is C105_use; C105_definitions, C105_code and C105_rounds are its parts and C105_rust discharges the parser laws on the Rust instance. The _refuted theorems show that each proviso is needed; they do not concern the statement itself. Uses that raise a deprecation warning are left out.",
  "status": "proved"
 },
 "C106": {
  "note": "C106_use is the claim; C106_definitions is its part about definitions, C106_unread covers inputs that are not read, C106_rust discharges the re-parsing laws on the Rust instance. C106_merged_refuted shows that injectivity is needed and does not concern the statement itself. Whether the proviso on values could be dropped is open.",
  "status": "proved"
 },
 "C107": {
  "note": "C107_use is the claim, C107_code its core, C107_plain the class of values it holds for, C107_attribute says that an attribute on another item keeps its definitions. The _refuted theorems show that the provisos are needed (alias, string) and that failures may differ (read); they do not concern the statement itself.",
  "status": "proved"
 },
 "C108": {
  "note": "C108_definitions and C108_use are the claim, C108_values the case of all definitions, C108_rounds includes the values of loops, C108_spans is about spans and the places of errors. The _refuted theorems show that the two provisos in the statement are needed.",
  "status": "proved"
 },
 "C109": {
  "note": "C109_rounds and C109_same are the claim, C109_both is about one use with both headers, C109_substitutions says it of the tokens. The _refuted theorems show that the provisos in the statement are needed and that with loops in both the order of the pieces differs.",
  "status": "proved"
 },
 "C110": {
  "note": "C110_one_part, C110_two_parts and C110_loop are the claim for identifiers, C110_values and C110_any_loop for values of any kind; C110_two_loops is the part on two loops; words_read, assumed there, is proved of the Rust instance. The _refuted theorems show the coincidences that the statement mentions.",
  "status": "proved"
 },
 "C111": {
  "note": "C111_again, C111_through and C111_back are about values, C111_use about uses. The laws rereads and prints_read are proved of the Rust instance. C111_strings_refuted shows the exceptions that the statement names.",
  "status": "proved"
 }
}