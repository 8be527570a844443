{
 "claims": [
  {
   "property": "C01",
   "status": "proved",
   "theorems": [
    "C01_iterator_is_nested_loops",
    "C01_expand_is_nested_loops",
    "C01_combinations_are_the_product",
    "C01_number_of_combinations"
   ],
   "note": "Iterator and expansion both equal the nested-loop specification, for any number of sources and values."
  },
  {
   "property": "C02",
   "status": "proved",
   "theorems": [
    "C02_empty_list_emits_nothing",
    "C02_no_loops_emits_once"
   ],
   "note": ""
  },
  {
   "property": "C03",
   "status": "proved",
   "theorems": [
    "C03_size_hint_exact",
    "C03_reset_is_fresh",
    "C03_reset_no_sources_refuted"
   ],
   "note": "Exact at every point reachable through next. The refuted theorem covers reset with no sources, which no caller in the crate reaches."
  },
  {
   "property": "C04",
   "status": "proved",
   "theorems": [
    "C04_destructuring_is_positional"
   ],
   "note": ""
  },
  {
   "property": "C05",
   "status": "partial",
   "theorems": [
    "C05_shape_mismatch_rejected_refuted",
    "C05_accepts_iff_same_level_order",
    "C05_other_tuples_are_type_errors",
    "C05_flat_tuples_partial"
   ],
   "note": "False as stated: shapes with the same level-order kinds are accepted and values bound at other positions. Exact acceptance condition proved; the stated property proved for alias tuples without nesting."
  },
  {
   "property": "C06",
   "status": "proved",
   "theorems": [
    "C06_redefinition_iff_duplicate",
    "C06_distinct_names_never_rejected",
    "C06_success_means_distinct"
   ],
   "note": "For the built-in function table. The redefinition error is characterised exactly; distinct names never give it."
  },
  {
   "property": "C07",
   "status": "proved",
   "theorems": [
    "C07_later_definitions_do_not_matter",
    "C07_unmentioned_definitions_do_not_matter",
    "C07_plain_value"
   ],
   "note": ""
  },
  {
   "property": "C08",
   "status": "proved",
   "theorems": [
    "C08_definitions_follow_elaboration",
    "C08_best_overload",
    "C08_ready_after_prefix",
    "C08_builtin_ids_distinct",
    "C08_order_of_overloads_irrelevant"
   ],
   "note": "resolve and eval are proved equal to an id-free elaboration semantics; the recorded overload is the unique best one; SignatureError iff none accepts; overload order is irrelevant."
  },
  {
   "property": "C09",
   "status": "proved",
   "theorems": [
    "C09_renumbering",
    "C09_invocations_agree"
   ],
   "note": ""
  },
  {
   "property": "C10",
   "status": "proved",
   "theorems": [
    "C10_types_decide",
    "C10_types_decide_definitions",
    "C10_documented_coercion"
   ],
   "note": ""
  },
  {
   "property": "C11",
   "status": "proved",
   "theorems": [
    "C11_coercions_are_the_documented_ones",
    "C11_triangle",
    "C11_zero_cost_is_identity"
   ],
   "note": "Includes the cost-5 coercion from and to raw tokens that the README's table omits."
  },
  {
   "property": "C12",
   "status": "proved",
   "theorems": [
    "C12_resolved_definitions_evaluate"
   ],
   "note": "Holds without any assumption on the external parsers."
  },
  {
   "property": "C13",
   "status": "proved",
   "theorems": [
    "C13_concat"
   ],
   "note": ""
  },
  {
   "property": "C14",
   "status": "partial",
   "theorems": [
    "C14_documented_conversions_refuted",
    "C14_ident_first_composition_partial",
    "C14_token_first_composition_partial"
   ],
   "note": "False as stated, for the README's own examples. Proved: the exact outcome for identifier-first compositions, and that converting the first argument with to_tokens makes the conversions work."
  },
  {
   "property": "C15",
   "status": "proved",
   "theorems": [
    "C15_normalize_is_normal_form",
    "C15_normalize_not_empty",
    "C15_normalize_alphabet",
    "C15_normalize_no_leading_digit",
    "C15_normalize_trailing_underscore"
   ],
   "note": ""
  },
  {
   "property": "C16",
   "status": "proved",
   "theorems": [
    "C16_normalize_keeps_content",
    "C16_normalize_keeps_identifiers"
   ],
   "note": ""
  },
  {
   "property": "C17",
   "status": "partial",
   "theorems": [
    "C17_normalize_idempotent_refuted",
    "C17_idempotent_iff_no_trailing_underscore",
    "C17_no_leading_underscore_partial"
   ],
   "note": "False as stated (a__ -> a_ -> a). Proved: idempotence exactly when the output has no trailing underscore to lose."
  },
  {
   "property": "C18",
   "status": "proved",
   "theorems": [
    "C18_no_percent_unchanged",
    "C18_one_percent_unchanged",
    "C18_unterminated_placeholder_kept"
   ],
   "note": ""
  },
  {
   "property": "C19",
   "status": "proved",
   "theorems": [
    "C19_format_is_meaning",
    "C19_every_string_has_a_reading"
   ],
   "note": ""
  },
  {
   "property": "C20",
   "status": "partial",
   "theorems": [
    "C20_percent_escape_refuted",
    "C20_isolated_run_partial"
   ],
   "note": "False as stated: a run of n percent signs gives n-1. The exact behaviour is proved for isolated runs."
  },
  {
   "property": "C21",
   "status": "proved",
   "theorems": [
    "C21_substitution",
    "C21_all_streams",
    "C21_leaves",
    "C21_unchanged",
    "C21_structure"
   ],
   "note": "At the level of token streams, which is what the walker works on; the item visitor is C25/C26."
  },
  {
   "property": "C22",
   "status": "proved",
   "theorems": [
    "C22_swap",
    "C22_composition",
    "C22_self_reference"
   ],
   "note": ""
  },
  {
   "property": "C23",
   "status": "partial",
   "theorems": [
    "C23_terminates",
    "C23_substitution_terminates",
    "C23_enter_replacement_refuted"
   ],
   "note": "Proved for every visitor that does not replace a group's contents on entering it, with a bound on the input alone; for visitors that do, divergence is proved."
  },
  {
   "property": "C24",
   "status": "partial",
   "theorems": [
    "C24_success",
    "C24_first_failure",
    "C24_outcomes",
    "C24_stages",
    "C24_no_panic_without_valid_input_refuted"
   ],
   "note": "The exact outcome is proved for every stream and parser. The no-panic part holds if the given stream itself parses and the parser does not look into string literals; a witness shows the panic otherwise."
  },
  {
   "property": "C25",
   "status": "partial",
   "theorems": [
    "C25_where_clause_refuted",
    "C25_inner_attribute_refuted",
    "C25_raw_string_refuted",
    "C25_unchanged_partial",
    "C25_unchanged_block_partial",
    "C25_respelled",
    "C25_respelled_block",
    "C25_inner_attributes",
    "C25_inner_attributes_block"
   ],
   "note": "False as stated: where clauses of structs, enums, unions, traits and impls are dropped, inner attributes panic, and strings are respelled. These are the only differences: with parsers that print what they read and do not look into strings (the Rust instance: rust_faithful, rust_indifferent), every item without inner attributes comes out as its tokens without where clauses and with strings respelled (C25_respelled), and no item with an inner attribute comes out (C25_inner_attributes). C25_unchanged_partial needs no assumption about parsers beyond the item's own nodes."
  },
  {
   "property": "C26",
   "status": "proved",
   "theorems": [
    "C26_every_part",
    "C26_every_part_of_a_block",
    "C26_no_alias_left"
   ],
   "note": "Assumes that syn's parsers print back the tokens parsed and that the keywords of items are not alias names. Where clauses are dropped (C25)."
  },
  {
   "property": "C27",
   "status": "proved",
   "theorems": [
    "C27_nothing_pending",
    "C27_outputs_are_separate",
    "C27_own_warnings_only",
    "C27_no_warning_no_attribute",
    "C27_history_irrelevant"
   ],
   "note": "For every history of invocations from a fresh thread. The parser is represented by what it does to the service and its result; panics unwind through the scopes."
  },
  {
   "property": "C28",
   "status": "proved",
   "theorems": [
    "C28_annotates",
    "C28_specification_is_complete",
    "C28_specification_is_functional",
    "C28_at_most_one_per_node",
    "C28_in_order_until_exhausted",
    "C28_warnings_are_a_set",
    "C28_sorted"
   ],
   "note": "On the forest of nodes that syn's traversal meets, in its order."
  },
  {
   "property": "C29",
   "status": "partial",
   "theorems": [
    "C29_own_name_refuted",
    "C29_own_name_partial",
    "C29_announced"
   ],
   "note": "Refuted: the thread-local cell keeps the first macro's prefix. Holds when a thread uses one macro only; C27_own_warnings_only gives the exact prefix otherwise."
  },
  {
   "property": "C30",
   "status": "partial",
   "theorems": [
    "C30_lists",
    "C30_accepted_partial",
    "C30_accepted_item_partial",
    "C30_calls_stand_alone",
    "C30_mixed_rejected",
    "C30_trailing_rejected",
    "C30_refuted",
    "C30_item_mixed_refuted"
   ],
   "note": "False as stated: ordinary values separated by semicolons are rejected by compose! and swallowed by #[compose_item], which also accepts a list ending in both separators. Proved: acceptance is exactly being a list with one kind of separator, as the value parser delimits the values; lists of built-in calls (either separator) and of values that end at the separator are accepted with their items in order; mixing is rejected, the trailing separator included. Missing: ordinary values with semicolons, where it is false."
  },
  {
   "property": "C31",
   "status": "partial",
   "theorems": [
    "C31_best",
    "C31_measure",
    "C31_longest",
    "C31_comma",
    "C31_ends",
    "C31_nothing_lost",
    "C31_unread_refuted"
   ],
   "note": "The classification itself is proved without exception, for all external parsers. The refuted theorem is about the last clause: where syn leaves tokens of a group unread ((b * c) is taken for the type (b)), the alias value is rejected and call arguments are silently dropped."
  },
  {
   "property": "C32",
   "status": "partial",
   "theorems": [
    "C32_counts_leaves",
    "C32_same_group",
    "C32_reading",
    "C32_reads_stream",
    "C32_reads_group",
    "C32_symmetric",
    "C32_zero_partial",
    "C32_additive_partial",
    "C32_refuted"
   ],
   "note": "The exact law is proved for all positions (C32_counts_leaves), with symmetry for all pairs. Zero-iff and additivity hold for positions of one group; refuted when the earlier position is inside a group and the later one outside. Every call in the crate compares positions of one group."
  },
  {
   "property": "C33",
   "status": "partial",
   "theorems": [
    "C33_all_outputs_in_order",
    "C33_first_error",
    "C33_first_expansion_error",
    "C33_first_combination_refuted"
   ],
   "note": "All outputs in order or one error. The refuted theorem: expansion of all combinations comes first, so its error hides an earlier combination's resolve or evaluation error; C33_first_error gives the exact order."
  },
  {
   "property": "C34",
   "status": "proved",
   "theorems": [
    "C34_rounds_are_independent",
    "C34_more_values"
   ],
   "note": "Each round's output equals that of the same round alone, for any patterns, values, spec, block and oracles."
  },
  {
   "property": "C35",
   "status": "proved",
   "theorems": [
    "C35_hash",
    "C35_hash_text"
   ],
   "note": "For hash of a plain value or alias."
  },
  {
   "property": "C36",
   "status": "proved",
   "theorems": [
    "C36_raw",
    "C36_converted_raw"
   ],
   "note": ""
  },
  {
   "property": "C37",
   "status": "proved",
   "theorems": [
    "C37_unknown",
    "C37_known",
    "C37_calls_known",
    "C37_calls_known_item",
    "C37_unreachable",
    "C37_same_table",
    "C37_never_reported"
   ],
   "note": "For any function table and, from source, for the built-in one."
  },
  {
   "property": "C38",
   "status": "partial",
   "theorems": [
    "C38_type_names_round_trip_refuted",
    "C38_round_trip_partial"
   ],
   "note": "False as stated: expr, raw, type and variadic types cannot be read back. Exactly the other five round-trip."
  },
  {
   "property": "C39",
   "status": "proved",
   "theorems": [
    "C39_unique",
    "C39_all_answered",
    "C39_bound_is_sharp"
   ],
   "note": "Atomic requests in any interleaving; the bound 2^64 is sharp."
  },
  {
   "property": "C40",
   "status": "proved",
   "theorems": [
    "C40_cast_gives_requested_type",
    "C40_cast_to_own_type",
    "C40_cast_to_tokens_keeps_tokens",
    "C40_cast_there_and_back",
    "C40_ident_string_round_trip",
    "C40_failed_casts_are_type_errors",
    "C40_casts_never_panic",
    "C40_coercions_are_casts"
   ],
   "note": ""
  },
  {
   "property": "C41",
   "status": "proved",
   "theorems": [
    "C41_outcomes",
    "C41_syntax"
   ],
   "note": ""
  },
  {
   "property": "C42",
   "status": "proved",
   "theorems": [
    "C42_meaning",
    "C42_meaning_without_warnings"
   ],
   "note": "Assumes that the external parsers' nodes print what was parsed and that no alias is called like an item keyword (only union, auto and default are possible). Where clauses are dropped (C25); SubstitutionErrors (C24) and the two panics of the visitor come on top."
  },
  {
   "property": "C43",
   "status": "proved",
   "theorems": [
    "C43_semicolons"
   ],
   "note": "The flag is characterised by C30_lists."
  },
  {
   "property": "C44",
   "status": "proved",
   "theorems": [
    "C44_first_part",
    "C44_success",
    "C44_part",
    "C44_use",
    "C44_code"
   ],
   "note": "Same assumptions as C42; with them the outcome of a use is determined completely (C44_use)."
  },
  {
   "property": "C45",
   "status": "proved",
   "theorems": [
    "C45_counters_do_not_matter",
    "C45_parsing",
    "C45_parsing_item",
    "C45_seed",
    "C45_sources_suffice_refuted"
   ],
   "note": "A use of hash depends on the seed, i.e. on how many ids were drawn before it: C45_sources_suffice_refuted. That refutes only the unrestricted reading; the statement of C45 itself is proved."
  },
  {
   "property": "C46",
   "status": "partial",
   "theorems": [
    "C46_plain_values_partial",
    "C46_shadowed_refuted",
    "C46_calls_refuted",
    "C46_settled_calls",
    "C46_steady",
    "C46_own_name_refuted"
   ],
   "note": "Proved for plain values, and for calls that have one meaning whatever type is wanted of them (settled); a grammar of such calls, nested to any depth, is given (steady). C70_naming proves it also for calls with conversions in independent definitions. Refuted for other calls (the wanted type takes part in choosing the overload of an inline call but not of a named one: concat(x, hash(\"s\"))), for identifiers that are defined as aliases in between, and for a call that mentions its own name."
  },
  {
   "property": "C47",
   "status": "proved",
   "theorems": [
    "C47_definitions",
    "C47_code",
    "C47_round"
   ],
   "note": "For the code: if both succeed. Intermediate stages of the substitution still contain the old name, so an external parser could tell them apart."
  },
  {
   "property": "C48",
   "status": "proved",
   "theorems": [
    "C48_calls"
   ],
   "note": "The arguments are plain values or aliases; nested calls are elaborated by C08/C13 (SpecElab)."
  },
  {
   "property": "C49",
   "status": "proved",
   "theorems": [
    "C49_blame",
    "C49_refusals_first",
    "C49_evaluation_last"
   ],
   "note": ""
  },
  {
   "property": "C50",
   "status": "partial",
   "theorems": [
    "C50_type_texts",
    "C50_signatures",
    "C50_overloads",
    "C50_table",
    "C50_quoted_call_refuted",
    "C50_calls",
    "C50_shown"
   ],
   "note": "The last sentence is refuted: strings are shown without escapes (C50_quoted_call_refuted). It holds, for name and shown arguments, when in everything shown parentheses match and strings end (C50_calls). The others are proved."
  },
  {
   "property": "C51",
   "status": "partial",
   "theorems": [
    "C51_right",
    "C51_checked",
    "C51_wrapping",
    "C51_overflow_refuted",
    "C51_choice_refuted",
    "C51_uses",
    "C51_uses_any_width",
    "C51_uses_refuted"
   ],
   "note": "Proved for all definitions whose weight (read off the source) is below 2^32, for any arithmetic that is right below a bound (C51_right), and for whole compilations: the checked and the wrapping pipeline give the same outputs as the exact one if 5 * tokens * 2^nesting of what is written outside of braces is below 2^32 (C51_uses). Refuted in general: thirty nested concat calls overflow, a debug build panics (C51_overflow_refuted, C51_uses_refuted) and a release build can choose another overload (C51_choice_refuted)."
  },
  {
   "property": "C52",
   "status": "proved",
   "theorems": [
    "C52_same",
    "C52_at_most",
    "C52_at_most_any_table",
    "C52_exponential",
    "C52_raw",
    "C52_uses",
    "C52_definitions"
   ],
   "note": "Work is the number of calls of Expr::resolve, counted by a copy of the resolver that C52_same shows to have the same results. C52_uses bounds the work of every copy of the block by 8 * tokens * 7^nesting of the source."
  },
  {
   "property": "C53",
   "status": "proved",
   "theorems": [
    "C53_reading",
    "C53_outputs",
    "C53_last_comma",
    "C53_without_definitions",
    "C53_any_header_refuted"
   ],
   "note": "Shown for commas. The conditions on the external parsers (they read no further than a comma, blocks are groups of braces) are met by the concrete instance in C53_example. C53_any_header_refuted is the exception: a header with two separators at its end."
  },
  {
   "property": "C54",
   "status": "proved",
   "theorems": [
    "C54_later_uses",
    "C54_all_uses",
    "C54_quiet_uses"
   ],
   "note": ""
  },
  {
   "property": "C55",
   "status": "proved",
   "theorems": [
    "C55_rounds",
    "C55_source",
    "C55_outer_refuted",
    "C55_inner_refuted",
    "C55_loops",
    "C55_loops_misfit"
   ],
   "note": "The rounds are proved equivalent to inputs without loops for every parsed input. The text form is proved for one loop over values that are not tuples, each value judged in its place (C55_source), and for any number of loops with any patterns over values that end at any comma (C55_loops, C55_loops_misfit, both macros). Unrolling one of several loops fails, with witnesses (C55_outer_refuted, C55_inner_refuted)."
  },
  {
   "property": "C56",
   "status": "proved",
   "theorems": [
    "C56_result",
    "C56_error",
    "C56_error_at_alias",
    "C56_without_spans",
    "C56_provenance",
    "C56_untouched",
    "C56_delimiters_refuted"
   ],
   "note": "The span of the whole group on its delimiters is stated as C56_delimiters_refuted (a stream without aliases does not come back as it was)."
  },
  {
   "property": "C57",
   "status": "proved",
   "theorems": [
    "C57_functions",
    "C57_casts",
    "C57_evaluation",
    "C57_without_spans",
    "C57_provenance",
    "C57_substitutions",
    "C57_placeless_refuted"
   ],
   "note": "That every identifier made from input has a place in the input is false: C57_placeless_refuted."
  },
  {
   "property": "C58",
   "status": "proved",
   "theorems": [
    "C58_places"
   ],
   "note": "The place is one of the listed; for type errors the exact token is up to syn's error."
  },
  {
   "property": "C59",
   "status": "proved",
   "theorems": [
    "C59_function_input",
    "C59_attribute_input",
    "C59_unambiguous",
    "C59_otherwise",
    "C59_expression"
   ],
   "note": "Ids are compared after erasing them; their values are C39 and C45. syn's parsers for values and blocks are parameters."
  },
  {
   "property": "C60",
   "status": "proved",
   "theorems": [
    "C60_definitions",
    "C60_resolution",
    "C60_kind",
    "C60_kind_recoverable",
    "C60_redefined",
    "C60_undefined"
   ],
   "note": "Texts of syn and of parse_str are oracles (syn_error_text, str_error_text). Internal errors carry no text in the model; the theorem shows that none occurs."
  },
  {
   "property": "C61",
   "status": "proved",
   "theorems": [
    "C61_without_spans",
    "C61_same_tokens"
   ],
   "note": "C61_without_spans by erasing every function of the spanned model; the instance of the hypotheses exists for any plain parsers."
  },
  {
   "property": "C62",
   "status": "proved",
   "theorems": [
    "C62_provenance",
    "C62_of_a_token"
   ],
   "note": "Proved for each use separately, so also between uses; the places of the three .stderr tests are examples."
  },
  {
   "property": "C63",
   "status": "proved",
   "theorems": [
    "C63_said",
    "C63_nothing_else",
    "C63_unread",
    "C63_never_silent"
   ],
   "note": "The error of Block::parse, and the token that syn reports when a group is not read to its end, are the parser oracle's."
  },
  {
   "property": "C64",
   "status": "proved",
   "theorems": [
    "C64_rounds",
    "C64_misfit",
    "C64_either",
    "C64_not_both"
   ],
   "note": "Exact equality of results; misfits characterised by a relation that is exhaustive and excludes rounds."
  },
  {
   "property": "C65",
   "status": "proved",
   "theorems": [
    "C65_reports",
    "C65_substitution"
   ],
   "note": "Assumes of syn, besides the assumptions of C61 and C62, that identifiers of a reparsed block keep their places or get call_site; then the place may also be call_site."
  },
  {
   "property": "C66",
   "status": "proved",
   "theorems": [
    "C66_definitions",
    "C66_use",
    "C66_failing_refuted"
   ],
   "note": "C66_definitions is about the values, C66_use about whole uses; the mention in a block is by the parts of C44, so where clauses do not count (C25). C66_failing_refuted shows that failing definitions are not ignored. The refuted theorems are part of the statement, which is proved in full."
  },
  {
   "property": "C67",
   "status": "proved",
   "theorems": [
    "C67_definitions",
    "C67_use",
    "C67_code",
    "C67_dependent_refuted",
    "C67_errors_refuted"
   ],
   "note": "No hypothesis about reparsing: the lookups are the same. The errors differ in general (C67_errors_refuted). The refuted theorems are part of the statement, which is proved in full."
  },
  {
   "property": "C68",
   "status": "proved",
   "theorems": [
    "C68_blocks",
    "C68_warnings_refuted",
    "C68_loops_refuted"
   ],
   "note": "Stated on three uses of the same run, whose blocks are b1 ++ b2, b1 and b2. The refuted theorems are part of the statement, which is proved in full."
  },
  {
   "property": "C69",
   "status": "proved",
   "theorems": [
    "C69_visible",
    "C69_visible_item",
    "C69_visible_uses",
    "C69_transparent",
    "C69_transparent_item",
    "C69_instance",
    "C69_empty_refuted",
    "C69_comma_refuted",
    "C69_arguments",
    "C69_distance"
   ],
   "note": "Reading through is a hypothesis on syn's parsers at the positions of the input (transparent_at), satisfied by an instance made from any parsers (C69_instance). The conditions on empty groups and commas are needed (C69_empty_refuted, C69_comma_refuted). The refuted theorems are part of the statement, which is proved in full."
  },
  {
   "property": "C70",
   "status": "proved",
   "theorems": [
    "C70_definitions",
    "C70_hash_refuted",
    "C70_cost_refuted",
    "C70_naming",
    "C70_exchange",
    "C70_concat_flat",
    "C70_flat_kinds_refuted"
   ],
   "note": "Independence is a decidable check on types and costs (independent_items). Refuted without it for hash of a string (C70_hash_refuted) and for costly first arguments of concat (C70_cost_refuted); flattening is refuted for mixed kinds (C70_flat_kinds_refuted). Costs are unbounded numbers as in Resolve.v; overflow of u32 is C51. The refuted theorems are part of the statement, which is proved in full."
  },
  {
   "property": "C71",
   "status": "proved",
   "theorems": [
    "C71_any_schedule",
    "C71_deterministic",
    "C71_finishes",
    "C71_plans",
    "C71_hash_refuted",
    "C71_any_placement",
    "C71_placement_refuted"
   ],
   "note": "C71_any_schedule and C71_deterministic for all schedules without wrap-around, C71_finishes: every thread is done after as many turns as it draws; C71_hash_refuted and C71_placement_refuted: hashes depend on the schedule, warnings on the thread's first macro. The draws are an explicit machine (Threads.v); thread-local work between two draws is one step."
  },
  {
   "property": "C72",
   "status": "proved",
   "theorems": [
    "C72_sequence",
    "C72_split",
    "C72_output_split",
    "C72_split_anywhere",
    "C72_shuffled",
    "C72_exchange",
    "C72_use",
    "C72_exchange_refuted",
    "C72_report_refuted"
   ],
   "note": "C72_split and C72_output_split: the first loop; C72_split_anywhere, C72_shuffled: permutations of rounds, failures included; C72_exchange and C72_use: unrelated loops; C72_exchange_refuted and C72_report_refuted show the limits."
  },
  {
   "property": "C73",
   "status": "proved",
   "theorems": [
    "C73_substitutions",
    "C73_nested",
    "C73_strings_refuted",
    "C73_values_refuted",
    "C73_header_refuted"
   ],
   "note": "C73_substitutions: two substitutions; C73_nested: both steps against the flat use; the conditions of C73_nested are satisfied in C73_example; C73_strings_refuted, C73_values_refuted, C73_header_refuted show that they are needed."
  },
  {
   "property": "C74",
   "status": "proved",
   "theorems": [
    "C74_spellings",
    "C74_letters",
    "C74_snake",
    "C74_constants",
    "C74_snake_decides",
    "C74_back",
    "C74_twice_refuted",
    "C74_identifiers",
    "C74_absorbed"
   ],
   "note": "C74_twice_refuted shows what the round trips leave out. heck is modelled on ASCII text (RustText)."
  },
  {
   "property": "C75",
   "status": "partial",
   "theorems": [
    "C75_accepted_refuted",
    "C75_cased",
    "C75_composed",
    "C75_spellings",
    "C75_normalized",
    "C75_mixed"
   ],
   "note": "Refuted (C75_accepted_refuted): upper, lower and concat of identifiers always panic (C75_cased, C75_composed); what the other functions make of them is C75_spellings, C75_normalized and C75_mixed, without a panic."
  },
  {
   "property": "C76",
   "status": "proved",
   "theorems": [
    "C76_same",
    "C76_parses",
    "C76_count",
    "C76_at_most",
    "C76_no_alias",
    "C76_quadratic"
   ],
   "note": "The log is that of a block whose substitution succeeds; how a failing one ends is C24 and C44. A string literal is also parsed by itself, in constant time, which is not logged."
  },
  {
   "property": "C77",
   "status": "proved",
   "theorems": [
    "C77_bytes",
    "C77_different",
    "C77_range",
    "C77_names"
   ],
   "note": "About the instance with std's hasher (RustText), written from the published algorithm and checked against the hashes in the repository's tests; str and u64 hash as std documents: bytes in UTF-8 followed by 255, and eight bytes in little endian."
  },
  {
   "property": "C78",
   "status": "proved",
   "theorems": [
    "C78_values",
    "C78_code",
    "C78_doubling",
    "C78_modest"
   ],
   "note": "The block is counted without the where clauses that are dropped (C25); aliases may be named like keywords of items, which stay (C83)."
  },
  {
   "property": "C79",
   "status": "proved",
   "theorems": [
    "C79_same",
    "C79_linear",
    "C79_round"
   ],
   "note": "Counts rounds of TerminatedValue::parse on a copy of the parser with a counter, tied to the parser by C79_same. What syn does in an attempt is not counted."
  },
  {
   "property": "C80",
   "status": "proved",
   "theorems": [
    "C80_origins",
    "C80_invariant",
    "C80_no_calls",
    "C80_instances"
   ],
   "note": "Composed means accepted by Ident::new or parsed from a string by syn. Aliases may be named like keywords of items (C83)."
  },
  {
   "property": "C81",
   "status": "proved",
   "theorems": [
    "C81_block",
    "C81_code",
    "C81_laws",
    "C81_reading"
   ],
   "note": "Groups are compared by the span of the whole. How many attributes are added and where is pinned by C61 with C42. C81_reading says of the instance that a block is read with the spans it was written with."
  },
  {
   "property": "C82",
   "status": "proved",
   "theorems": [
    "C82_uses",
    "C82_bindings",
    "C82_dropping",
    "C82_keeping",
    "C82_laws",
    "C82_blind_refuted"
   ],
   "note": "C82_uses for any functions with the laws of sees_through, C82_bindings for the values of the aliases, C82_dropping and C82_keeping for two instances without further conditions on what was parsed, C82_blind_refuted: needed that the functions see through the groups. The conditions are those of C69, whose counterexamples apply. The refuted theorem is part of the statement, which is proved in full."
  },
  {
   "property": "C83",
   "status": "proved",
   "theorems": [
    "C83_pieces",
    "C83_words",
    "C83_block",
    "C83_use",
    "C83_plain",
    "C83_aliases",
    "C83_reserved",
    "C83_laws",
    "C83_everywhere_refuted",
    "C83_span_pieces",
    "C83_span_block",
    "C83_span_code"
   ],
   "note": "C83_use is C44_use without its condition on the aliases; C83_plain says when both agree and C83_everywhere_refuted that they do not always (an alias `union` is not replaced in `union U {..}`). The refuted theorem is part of the statement, which is proved in full. C83_span_code is C81_code without its condition on the aliases."
  },
  {
   "property": "C84",
   "status": "proved",
   "theorems": [
    "C84_function_input",
    "C84_attribute_input",
    "C84_exactly",
    "C84_exactly_attribute",
    "C84_one_reading"
   ],
   "note": "No law of syn is assumed for the first two theorems: nodes and literals are related to syn's answer for the tokens that begin there. C84_exactly and C84_exactly_attribute join them with the grammar of C59 to an equivalence, under the assumption that syn's parsers do not look at spans."
  },
  {
   "property": "C85",
   "status": "proved",
   "theorems": [
    "C85_any_order",
    "C85_substitutions",
    "C85_map"
   ],
   "note": "The other hash maps of the crate are only looked up. C85_duplicates shows that the order would matter if a name could be defined twice; C06 says that it cannot."
  },
  {
   "property": "C86",
   "status": "proved",
   "theorems": [
    "C86_without_spans",
    "C86_same_tokens",
    "C86_visible",
    "C86_provenance",
    "C86_of_a_token"
   ],
   "note": "The parser with spans on positions with invisible groups; the places of errors are syn's, in the trusted base."
  },
  {
   "property": "C87",
   "status": "proved",
   "theorems": [
    "C87_transparent",
    "C87_transparent_item",
    "C87_messages",
    "C87_messages_item",
    "C87_instance"
   ],
   "note": "Parsing only; C86 has the whole of both macros. What syn says where there is no block is left to syn. Where groups are empty or hold commas the parses differ (C69)."
  },
  {
   "property": "C88",
   "status": "proved",
   "theorems": [
    "C88_rejected",
    "C88_rejected_alike",
    "C88_read",
    "C88_code",
    "C88_misfit",
    "C88_reports"
   ],
   "note": "Needs for the comparison that no invisible group is empty or holds a comma at its top (see C69)."
  },
  {
   "property": "C89",
   "status": "proved",
   "theorems": [
    "C89_moved",
    "C89_emitted",
    "C89_said",
    "C89_one_outcome_each",
    "C89_any_parsers",
    "C89_further_down",
    "C89_item_further_down",
    "C89_among_others"
   ],
   "note": "The laws (SpecSpanShift.moving) say that syn, given tokens with replaced spans, parses the same things with the spans replaced and says the same; they are assumptions about syn, shown of the instances made from parsers without spans."
  },
  {
   "property": "C90",
   "status": "proved",
   "theorems": [
    "C90_moved",
    "C90_emitted",
    "C90_said",
    "C90_one_outcome_each",
    "C90_among_others",
    "C90_any_parsers",
    "C90_further_down",
    "C90_item_further_down"
   ],
   "note": "For the parser of SpanInvisible.v; the law [moving] is that of C89, and parsers that read through invisible groups inherit it."
  },
  {
   "property": "C91",
   "status": "proved",
   "theorems": [
    "C91_renamed",
    "C91_one_outcome_each",
    "C91_among_others",
    "C91_block",
    "C91_rust",
    "C91_rust_exchange",
    "C91_exchange_spares",
    "C91_alias_not_passed_on",
    "C91_captured_name"
   ],
   "note": "The law (SpecRename.renames) about syn is proved of the Rust instance for injective renamings that spare the words of the grammar and strings. C91_block needs the parsers not to look from the definitions into the block (C53)."
  },
  {
   "property": "C92",
   "status": "proved",
   "theorems": [
    "C92_functions_not_called",
    "C92_own_table",
    "C92_functions_added",
    "C92_added_before",
    "C92_added_after",
    "C92_called_function_matters"
   ],
   "note": "expand_uses_with is compose_core with the environment made from the given table and with has_func asked of it; C92_own_table shows that it is the model of the macros for funcs.rs. ExtendParse shows that every parser asks has_func only for identifiers directly before parentheses and that the names of the calls in the result are among them; ExtendProofs that elaboration compares ids of overloads of one function only, so that shifting them per function changes nothing. The seed of the environment is a parameter of the use: if it is another (the counter is process-wide), C92_functions_added asks that the use hashes nothing."
  },
  {
   "property": "C93",
   "status": "proved",
   "theorems": [
    "C93_useless_overloads",
    "C93_refused",
    "C93_covers_C92",
    "C93_taken_overload_matters"
   ],
   "note": "The numbers of arguments are those of the calls in what is parsed (arities), whose parse does not depend on the added overloads. C93_covers_C92: functions that are not called may be added as well."
  },
  {
   "property": "C94",
   "status": "proved",
   "theorems": [
    "C94_not_taken",
    "C94_still_resolves",
    "C94_taken_overload_matters",
    "C94_may_break"
   ],
   "note": "Which overloads are taken is read off what the resolve phase records with the larger table (none_taken), definition by definition."
  },
  {
   "property": "C95",
   "status": "partial",
   "theorems": [
    "C95_placeholder",
    "C95_as_printed_partial",
    "C95_rust_prints",
    "C95_string",
    "C95_path",
    "C95_side_by_side",
    "C95_same_text_refuted"
   ],
   "note": "Refuted for paths: only the names are shown, so Vec<u8>, Vec<u16> and ::Vec<u8> are all shown as Vec (C95_path is exact for the paths of the Rust instance). C95_as_printed_partial: true of all values that are neither paths nor strings."
  },
  {
   "property": "C96",
   "status": "partial",
   "theorems": [
    "C96_raw",
    "C96_values_partial",
    "C96_literals",
    "C96_alias",
    "C96_unevaluated",
    "C96_loop_variable",
    "C96_strings_refuted",
    "C96_any_value_refuted"
   ],
   "note": "Refuted for strings and integers (C96_strings_refuted), of which normalize2 takes the text and the digits and normalize the spelling, and for values without letters or digits and values that spell keywords (C96_any_value_refuted). C96_values_partial leaves out strings and integers, for which C96_literals says when the two agree. C96_loop_variable: the example of adr/0001 makes the same name in each round."
  },
  {
   "property": "C97",
   "status": "partial",
   "theorems": [
    "C97_read",
    "C97_migrated",
    "C97_calls",
    "C97_any_value_refuted"
   ],
   "note": "Proved for definitions whose values are read alone whatever follows them, which C97_calls shows of all calls of known functions; that is what semicolons could separate. C97_any_value_refuted: for plain values the advice fails, since a = x; is refused or takes the rest of the attribute as its value."
  },
  {
   "property": "C98",
   "status": "partial",
   "theorems": [
    "C98_no_call",
    "C98_array",
    "C98_bound",
    "C98_no_name",
    "C98_no_function",
    "C98_source",
    "C98_refused_refuted"
   ],
   "note": "C98_source goes from the source of a use to its output: items and functions of the alias's name are refused, for parsers of signatures that refuse a bracket after fn, as the Rust instance is proved to do. C98_refused_refuted: where the alias is used as an expression the old form is accepted silently, as an array."
  },
  {
   "property": "C99",
   "status": "proved",
   "theorems": [
    "C99_any_text",
    "C99_nested",
    "C99_written",
    "C99_unwritable"
   ],
   "note": "C99_unwritable is about strings for all values at once; for particular values another string may happen to say the same."
  },
  {
   "property": "C100",
   "status": "proved",
   "theorems": [
    "C100_fit",
    "C100_twice",
    "C100_again",
    "C100_same"
   ],
   "note": "About the visitor; that the compiler's parser reads the printed block as that block is not claimed for all blocks (the example goes through the whole macro)."
  },
  {
   "property": "C101",
   "status": "proved",
   "theorems": [
    "C101_mixed",
    "C101_kind",
    "C101_declared",
    "C101_converted",
    "C101_suffix_refuted"
   ],
   "note": "The changelog's advice to convert with to_ident is refuted for texts that are no identifiers themselves: concat(x, \"1\") becomes concat(x, 1). hash of a string is the exception of C70: where an identifier is wanted it is one."
  },
  {
   "property": "C102",
   "status": "proved",
   "theorems": [
    "C102_stacked",
    "C102_order_refuted"
   ],
   "note": "C102_stacked; C102_example meets all hypotheses on the Rust instance; C102_values: the lower attribute may build on values of the upper; C102_order_refuted shows that the condition on values is needed."
  },
  {
   "property": "C103",
   "status": "proved",
   "theorems": [
    "C103_definitions",
    "C103_nested",
    "C103_stacked",
    "C103_loops_refuted",
    "C103_raw_refuted"
   ],
   "note": "C103_definitions, C103_nested, C103_stacked; C103_example meets all hypotheses on the Rust instance; C103_loops_refuted and C103_raw_refuted show that the conditions are needed."
  },
  {
   "property": "C104",
   "status": "proved",
   "theorems": [
    "C104_function_like",
    "C104_attribute",
    "C104_stacked",
    "C104_nested",
    "C104_rust",
    "C104_rust_reads",
    "C104_expressions_refuted",
    "C104_functions_refuted"
   ],
   "note": "C104_function_like, C104_attribute (reading), C104_stacked, C104_nested (whole uses), C104_rust, C104_rust_reads (the laws hold of the Rust instance); examples meet all hypotheses; C104_expressions_refuted and C104_functions_refuted show that the conditions are needed."
  },
  {
   "property": "C105",
   "status": "proved",
   "theorems": [
    "C105_definitions",
    "C105_code",
    "C105_rounds",
    "C105_use",
    "C105_rust",
    "C105_forward_refuted",
    "C105_expressions_refuted",
    "C105_tokens_refuted",
    "C105_strings_refuted"
   ],
   "note": "The full claim with its provisos is C105_use; C105_definitions, C105_code and C105_rounds are its parts and C105_rust discharges the parser laws on the Rust instance. The _refuted theorems show that each proviso is needed; they do not concern the statement itself. Uses that raise a deprecation warning are left out."
  },
  {
   "property": "C106",
   "status": "proved",
   "theorems": [
    "C106_definitions",
    "C106_use",
    "C106_unread",
    "C106_rust",
    "C106_merged_refuted"
   ],
   "note": "C106_use is the claim; C106_definitions is its part about definitions, C106_unread covers inputs that are not read, C106_rust discharges the re-parsing laws on the Rust instance. C106_merged_refuted shows that injectivity is needed and does not concern the statement itself. Whether the proviso on values could be dropped is open."
  },
  {
   "property": "C107",
   "status": "proved",
   "theorems": [
    "C107_code",
    "C107_plain",
    "C107_use",
    "C107_attribute",
    "C107_alias_refuted",
    "C107_strings_refuted",
    "C107_read_refuted"
   ],
   "note": "C107_use is the claim, C107_code its core, C107_plain the class of values it holds for, C107_attribute says that an attribute on another item keeps its definitions. The _refuted theorems show that the provisos are needed (alias, string) and that failures may differ (read); they do not concern the statement itself."
  },
  {
   "property": "C108",
   "status": "proved",
   "theorems": [
    "C108_definitions",
    "C108_values",
    "C108_use",
    "C108_rounds",
    "C108_alias_refuted",
    "C108_tokens_refuted",
    "C108_spans"
   ],
   "note": "C108_definitions and C108_use are the claim, C108_values the case of all definitions, C108_rounds includes the values of loops, C108_spans is about spans and the places of errors. The _refuted theorems show that the two provisos in the statement are needed."
  },
  {
   "property": "C109",
   "status": "proved",
   "theorems": [
    "C109_substitutions",
    "C109_rounds",
    "C109_same",
    "C109_both",
    "C109_loops_refuted",
    "C109_values_refuted",
    "C109_strings_refuted"
   ],
   "note": "C109_rounds and C109_same are the claim, C109_both is about one use with both headers, C109_substitutions says it of the tokens. The _refuted theorems show that the provisos in the statement are needed and that with loops in both the order of the pieces differs."
  },
  {
   "property": "C110",
   "status": "proved",
   "theorems": [
    "C110_one_part",
    "C110_two_parts",
    "C110_loop",
    "C110_values",
    "C110_any_loop",
    "C110_two_loops",
    "C110_side_by_side_refuted",
    "C110_case_refuted"
   ],
   "note": "C110_one_part, C110_two_parts and C110_loop are the claim for identifiers, C110_values and C110_any_loop for values of any kind; C110_two_loops is the part on two loops; words_read, assumed there, is proved of the Rust instance. The _refuted theorems show the coincidences that the statement mentions."
  },
  {
   "property": "C111",
   "status": "proved",
   "theorems": [
    "C111_again",
    "C111_through",
    "C111_back",
    "C111_use",
    "C111_strings_refuted"
   ],
   "note": "C111_again, C111_through and C111_back are about values, C111_use about uses. The laws rereads and prints_read are proved of the Rust instance. C111_strings_refuted shows the exceptions that the statement names."
  }
 ]
}