{
 "claims": [
  {
   "property": "C01",
   "status": "proved",
   "theorems": [
    "C01_parse_decides_language"
   ],
   "note": ""
  },
  {
   "property": "C02",
   "status": "proved",
   "theorems": [
    "C02_parse_total"
   ],
   "note": ""
  },
  {
   "property": "C03",
   "status": "proved",
   "theorems": [
    "C03_viable_prefix"
   ],
   "note": ""
  },
  {
   "property": "C04",
   "status": "proved",
   "theorems": [
    "C04_finished_iff_sentence"
   ],
   "note": ""
  },
  {
   "property": "C05",
   "status": "proved",
   "theorems": [
    "C05_overlapping_union",
    "C05_overlapping_viable"
   ],
   "note": ""
  },
  {
   "property": "C06",
   "status": "proved",
   "theorems": [
    "C06_truthful_hints"
   ],
   "note": ""
  },
  {
   "property": "C07",
   "status": "partial",
   "theorems": [
    "C07_error_index_partial",
    "C07_refuted"
   ],
   "note": "The property is false of the code (C07_refuted): parse reads one token ahead, so the index may name the token before the offending one. Proved: the offending token is tokens[i] or tokens[i+1]."
  },
  {
   "property": "C08",
   "status": "proved",
   "theorems": [
    "C08_same_answers",
    "C08_dropping_sets"
   ],
   "note": "Same answers over any forest; same forest and finished node over every forest that ignores positions, as all forests of the repository do (C44_refuted shows that the position given to a leaf is observable)."
  },
  {
   "property": "C09",
   "status": "partial",
   "theorems": [
    "C09_reset_partial",
    "C09_refuted"
   ],
   "note": "The property is false of the code (C09_refuted): reset keeps a lookahead hint and stale prediction rows. Proved: after a history that leaves no hint, reset then parse behaves as on a new recognizer."
  },
  {
   "property": "C10",
   "status": "proved",
   "theorems": [
    "C10_heap_is_priority_queue"
   ],
   "note": ""
  },
  {
   "property": "C11",
   "status": "proved",
   "theorems": [
    "C11_groups_descend",
    "C11_groups_exact"
   ],
   "note": "C11_groups_exact is for a location without hint (earlier locations may have hints). C11_order_needed shows that without the order of the symbols a group can come twice."
  },
  {
   "property": "C12",
   "status": "partial",
   "theorems": [
    "C12_order_partial",
    "C12_refuted"
   ],
   "note": "The property is false of the code (C12_refuted). Proved: exactly which order the comparator encodes."
  },
  {
   "property": "C13",
   "status": "proved",
   "theorems": [
    "C13_vec2d_refines_sets"
   ],
   "note": ""
  },
  {
   "property": "C14",
   "status": "proved",
   "theorems": [
    "C14_trees_sound"
   ],
   "note": "Every tree below the finished node is a parse tree of the input, as the simple bocage stores it."
  },
  {
   "property": "C15",
   "status": "proved",
   "theorems": [
    "C15_trees_complete",
    "C15_trees_exactly",
    "C15_sorted"
   ],
   "note": "Every parse tree is below the finished node, each exactly once. The symbols need no order; the rules are sorted by left-hand side, as sort_rules_by_lhs leaves them (C15_sorted)."
  },
  {
   "property": "C16",
   "status": "proved",
   "theorems": [
    "C16_unambiguous",
    "C16_parse_value",
    "C16_compact_value",
    "C16_short_value"
   ],
   "note": "For every forest built by calls of the Forest trait, for evaluators that push at least one value for a nulled symbol."
  },
  {
   "property": "C17",
   "status": "partial",
   "theorems": [
    "C17_refuted",
    "C17_root_partial",
    "C17_compact_root_partial",
    "C17_parse_partial",
    "C54_values_partial",
    "C17_example_grammar_refuted"
   ],
   "note": "The property is false of the code (C17_refuted): ambiguity below the root is flattened into the arguments of one product. Proved for both bocages: one value per tree if only the root is ambiguous, for forests built by any calls and for whole parses (C17_parse_partial; in terms of the user's own grammar and trees, C54_values_partial). C20_restored and C20_compact_restored give the value of every forest."
  },
  {
   "property": "C18",
   "status": "proved",
   "theorems": [
    "C18_codec"
   ],
   "note": ""
  },
  {
   "property": "C19",
   "status": "partial",
   "theorems": [
    "C19_same_answers",
    "C19_same_trees",
    "C19_short_trees",
    "C19_same_value_partial",
    "C19_short_same_value",
    "C19_unordered_values",
    "C19_parse_unordered_partial",
    "C19_user_values_partial",
    "C19_refuted"
   ],
   "note": "Proved: over the compact and the simple bocage the recognizer gives the same answers for any sequence of calls, the same trees each as often (as long as numbers fit in 32 bits; C19_short_trees: for every input up to a length computed from the grammar), and the same values for every non-empty input with one parse tree; for an evaluator that does not care about the order of a rule's arguments, the same values up to order on every forest (C19_unordered_values), and after every parse with a grammar whose symbols are in order (C19_parse_unordered_partial; for user grammars without unit steps, C19_user_values_partial). Refuted in the remaining part: evaluate orders the alternatives of an ambiguous input differently, and for the empty input only the simple bocage asks the evaluator about the nulled start symbol (compact gives no value)."
  },
  {
   "property": "C20",
   "status": "proved",
   "theorems": [
    "C20_restored",
    "C20_parse_evaluates",
    "C20_compact_restored",
    "C20_compact_parse_evaluates"
   ],
   "note": "For both bocages. Over the compact one as long as the graph, with what the evaluations append to it, has less than 2^32 bytes; C20_compact_parse_evaluates leaves out the empty input."
  },
  {
   "property": "C21",
   "status": "proved",
   "theorems": [
    "C21_forest_independence"
   ],
   "note": ""
  },
  {
   "property": "C22",
   "status": "proved",
   "theorems": [
    "C22_prediction_row"
   ],
   "note": ""
  },
  {
   "property": "C23",
   "status": "proved",
   "theorems": [
    "C23_completions"
   ],
   "note": ""
  },
  {
   "property": "C24",
   "status": "partial",
   "theorems": [
    "C24_gensyms_partial",
    "C24_refuted"
   ],
   "note": "The property is false of the code (C24_refuted). Proved: what the classification does guarantee."
  },
  {
   "property": "C25",
   "status": "proved",
   "theorems": [
    "C25_terminal_list"
   ],
   "note": ""
  },
  {
   "property": "C26",
   "status": "proved",
   "theorems": [
    "C26_tokenizing"
   ],
   "note": ""
  },
  {
   "property": "C27",
   "status": "proved",
   "theorems": [
    "C27_enumeration",
    "C27_reused"
   ],
   "note": ""
  },
  {
   "property": "C28",
   "status": "partial",
   "theorems": [
    "C28_extend_partial",
    "C28_refuted"
   ],
   "note": "The property is false of the code (C28_refuted; the source carries a FIXME). Proved: extend agrees with pushing exactly on a product without factors."
  },
  {
   "property": "C29",
   "status": "partial",
   "theorems": [
    "C29_events_partial",
    "C29_refuted"
   ],
   "note": "The property is false of the code (C29_refuted: panic). Proved: which events are reported, if there are at least as many rules as ordinary symbols; they belong to other places than the property asks for."
  },
  {
   "property": "C30",
   "status": "proved",
   "theorems": [
    "C30_predicted_symbols"
   ],
   "note": ""
  },
  {
   "property": "C31",
   "status": "partial",
   "theorems": [
    "C31_expected_partial",
    "C31_refuted"
   ],
   "note": "The property is false of the code (C31_refuted). Proved: exactly the second symbols of the rules begun are listed, and all of them may come next."
  },
  {
   "property": "C32",
   "status": "partial",
   "theorems": [
    "C32_exhausted_partial",
    "C32_refuted"
   ],
   "note": "The property is false of the code (C32_refuted: it may panic). Proved: whatever is answered is false, and the recognizer never claims to be finished."
  },
  {
   "property": "C33",
   "status": "partial",
   "theorems": [
    "C33_new_partial",
    "C33_refuted"
   ],
   "note": "The property is false of the code (C33_refuted). Proved: true exactly if the grammar has a nulling rule of any symbol."
  },
  {
   "property": "C34",
   "status": "partial",
   "theorems": [
    "C34_earleme_partial",
    "C34_refuted"
   ],
   "note": "The property is false of the code (C34_refuted). Proved: it counts the sets held, of which the last is that of the current location."
  },
  {
   "property": "C35",
   "status": "partial",
   "theorems": [
    "C35_new",
    "C35_handles_partial",
    "C35_root_refuted"
   ],
   "note": "Proved for handles used as children. Used as a root, the handle of an intermediate symbol makes evaluate panic (C35_root_refuted)."
  },
  {
   "property": "C36",
   "status": "proved",
   "theorems": [
    "C36_item_order"
   ],
   "note": ""
  },
  {
   "property": "C37",
   "status": "proved",
   "theorems": [
    "C37_rejecting_groups"
   ],
   "note": ""
  },
  {
   "property": "C38",
   "status": "proved",
   "theorems": [
    "C38_capacities"
   ],
   "note": ""
  },
  {
   "property": "C39",
   "status": "partial",
   "theorems": [
    "C39_refuted",
    "C39_first_partial"
   ],
   "note": "The property is false of the code (C39_refuted). Proved: with at least one value pushed, the first counts."
  },
  {
   "property": "C40",
   "status": "proved",
   "theorems": [
    "C40_trace",
    "C40_genuine"
   ],
   "note": ""
  },
  {
   "property": "C41",
   "status": "proved",
   "theorems": [
    "C41_lookahead_tables",
    "C41_no_successor_missing"
   ],
   "note": ""
  },
  {
   "property": "C42",
   "status": "not_applicable",
   "theorems": [],
   "note": "serde's derive output is not in the repository"
  },
  {
   "property": "C43",
   "status": "proved",
   "theorems": [
    "C43_construction_total"
   ],
   "note": ""
  },
  {
   "property": "C44",
   "status": "partial",
   "theorems": [
    "C44_refuted",
    "C44_position_partial"
   ],
   "note": "The property is false of the code: after sets are dropped the position is the number of sets held. Proved: it is that number for every token of the location, at most the number of the location, and equal to it exactly if no set was dropped."
  },
  {
   "property": "C45",
   "status": "partial",
   "theorems": [
    "C45_leaves_partial",
    "C45_refuted"
   ],
   "note": "The property is false of the code (C45_refuted): leaf is given the internal symbol. Proved: once per token, in order, with the internal symbol and the index."
  },
  {
   "property": "C46",
   "status": "partial",
   "theorems": [
    "C46_value_partial",
    "C46_arithmetic_partial",
    "C46_rejects",
    "C46_refuted",
    "C46_evaluator_refuted"
   ],
   "note": "The property is false of the code (C46_refuted: 123 is read as 33; C46_evaluator_refuted: the evaluator takes the internal symbols it is given for the user's). Proved, with symbols mapped back: the value of every expression as far as numbers have at most two digits, otherwise with the evaluator's reading of numbers; everything else is rejected."
  },
  {
   "property": "C47",
   "status": "proved",
   "theorems": [
    "C47_never_failed_to_finish",
    "C47_basic",
    "C47_words_unique",
    "C47_c_lexer",
    "C47_advanced",
    "C47_load_error",
    "C47_unknown_mode"
   ],
   "note": "Loading the grammar and cutting C text into tokens are parameters; if the C lexer fails, the page panics (C47_lexer_panics)."
  },
  {
   "property": "C48",
   "status": "partial",
   "theorems": [
    "C48_sentential_partial",
    "C48_start_symbol_accepted",
    "C48_refuted"
   ],
   "note": "The property is false of the code (C48_refuted; C48_start_symbol_accepted: in every grammar). Proved: what is accepted is derived from the start symbol, and parse never panics."
  },
  {
   "property": "C49",
   "status": "partial",
   "theorems": [
    "C49_named_tokens_partial",
    "C49_table_partial",
    "C49_refuted"
   ],
   "note": "The property is false of the code (C49_refuted). Proved: inputs that differ only in tokens without a name are answered alike; C47_c_lexer says what is judged."
  },
  {
   "property": "C50",
   "status": "partial",
   "theorems": [
    "C50_kind_partial",
    "C50_log_partial",
    "C50_log_exactly_partial",
    "C50_refuted"
   ],
   "note": "The property is false of the code (C50_refuted). Proved: what is said about the input never depends on the history; after the first call and with known modes the log does not either; and exactly which messages the history adds to the log."
  },
  {
   "property": "C51",
   "status": "partial",
   "theorems": [
    "C51_built_partial",
    "C51_language_partial",
    "C51_viable_partial",
    "C51_error_partial",
    "C51_contract_kept",
    "C51_reference_language_partial",
    "C51_returns_right_partial",
    "C51_input_language_partial",
    "C51_visible_language_partial"
   ],
   "note": "For every crate that keeps the contract of CrateSpec.v; a crate written in Coq keeps it for every grammar (C51_contract_kept), and with that one nothing is assumed (C51_reference_language_partial). With cycles, what parse answers is right if it answers (C51_returns_right_partial), it answers on every input that no cycle takes part in (C51_input_language_partial), and so always if no cycle is reached by the start symbol among symbols that are not always empty (C51_visible_language_partial). Missing: that it answers with other cycles (false, C52_cycle_never_ends) and grammars in which a rule begins with two or more symbols that may all be empty, one of them always, and goes on after them (from_grammar panics, C52_exactly)."
  },
  {
   "property": "C52",
   "status": "partial",
   "theorems": [
    "C51_built_partial",
    "C51_language_partial",
    "C52_unknown_token_panics",
    "C52_refuted",
    "C52_exactly",
    "C52_cycle_refuted",
    "C51_returns_right_partial",
    "C51_input_language_partial",
    "C52_cycle_never_ends",
    "C52_ends_exactly",
    "C52_reference_ends_exactly"
   ],
   "note": "The property is false of the code: from_grammar panics when a rule begins with two or more symbols that may all be empty, one of them always, and goes on after them (C52_refuted; C52_exactly proves that it is panic-free on all other grammars), parsing does not end on the sentences that a cycle takes part in (C52_cycle_refuted, C52_cycle_never_ends; C52_ends_exactly: it ends on all inputs exactly if there is no such cycle; C51_input_language_partial: which inputs it surely ends on), and a terminal that stands in useless rules only makes parse panic (C52_unknown_token_panics). Proved otherwise (C51)."
  },
  {
   "property": "C53",
   "status": "partial",
   "theorems": [
    "C53_refuted",
    "C53_both_before_refuted",
    "C53_strict_partial",
    "C12_order_partial"
   ],
   "note": "The property is false of the code (C53_refuted, C53_both_before_refuted). C53_strict_partial: if symbols that derive only the empty string stand in rules of at most two symbols only, the comparison is a strict partial order. C12_order_partial says what the comparison does guarantee."
  },
  {
   "property": "C54",
   "status": "partial",
   "theorems": [
    "C54_value_partial",
    "C54_compact_value_partial",
    "C54_trees_partial",
    "C54_values_partial",
    "C54_cyclic_trees_partial",
    "C54_cyclic_value_partial",
    "C54_cyclic_compact_partial",
    "C54_apart_kept"
   ],
   "note": "For every crate that keeps the contract of CrateSpec.v and numbers the symbols it leaves out apart from the others (crate_apart; kept by the reference crate for every grammar, and by every crate that keeps the contract when no symbol derives only the empty string). C54_values_partial is about input with several trees, for grammars without unit steps. With cycles (C54_cyclic_trees_partial, C54_cyclic_value_partial, and C54_cyclic_compact_partial for the compact bocage): once building the forest has ended its trees and values are exact, it ends if no cycle takes part in the input, and it never ends if the input has infinitely many trees. Missing: grammars with a rule that begins with two or more symbols of which all may and one must be empty (C52_exactly), crates that do not number apart, and evaluators that push nothing for a nulled symbol (C35)."
  },
  {
   "property": "C55",
   "status": "proved",
   "theorems": [
    "C55_calls_cubic",
    "C55_parse_cubic",
    "C55_counting_is_harmless",
    "C55_forest_size",
    "C55_simple_size",
    "C55_compact_size",
    "C55_constants",
    "C55_ranked",
    "C55_tree_linear"
   ],
   "note": "Time is counted in calls of the forest's methods, space in items held between locations and in nodes or bytes of the bocage. The constant depends on the grammar and on the number of tokens per location; C55_constants gives a formula for it."
  },
  {
   "property": "C56",
   "status": "partial",
   "theorems": [
    "C56_calls_refuted",
    "C56_time_refuted",
    "C56_memory_refuted",
    "C56_linear_parse_partial",
    "C56_linear_memory_partial",
    "C56_linear_size_partial",
    "C56_square_partial",
    "C56_reference_partial",
    "C56_hints_calls_refuted",
    "C56_hints_time_refuted",
    "C56_hints_memory_refuted"
   ],
   "note": "The property is false of the code for clients that set no hints, such as parse_tokenizing, and, even with the hints of parse, for some LR(1) grammars with empty rules. Proved linear for parse, which sets them, for reduced LR(1) grammars without empty rules and a cfg crate whose FOLLOW sets are not too large; quadratic without hints."
  },
  {
   "property": "C57",
   "status": "proved",
   "theorems": [
    "C57_rules",
    "C57_records",
    "C57_user",
    "C57_max_nulling"
   ],
   "note": "For every user grammar on which from_grammar succeeds, with cycles and symbols that are always empty included, and a cfg crate that keeps the contract."
  },
  {
   "property": "C58",
   "status": "partial",
   "theorems": [
    "C58_refuted",
    "C58_user_refuted",
    "C58_simple_partial",
    "C58_user_partial",
    "C58_plain",
    "C58_compact"
   ],
   "note": "The property is false of the code for grammars with a rule of one symbol that leads from a larger to a smaller nonterminal number (C58_refuted; C58_user_refuted for a user grammar and a cfg crate that keeps the contract for every grammar): the start symbol is then completed twice, the simple bocage passes the marker to the evaluator, and the compact one drops a reading. Proved over the simple bocage if symbols are in order, which user grammars without unit steps bring about with every crate (C58_user_partial; all grammars without empty rules and without rules of one nonterminal, C58_plain), and, as far as the marker goes, for all grammars over the compact one."
  },
  {
   "property": "C59",
   "status": "partial",
   "theorems": [
    "C59_values_partial",
    "C59_arithmetic_partial",
    "C59_trees",
    "C59_rejects",
    "C59_refuted",
    "C59_evaluator_refuted"
   ],
   "note": "The property is false of the code (C59_refuted: with three operators a value comes out that no reading has, and C17_example_grammar_refuted; C59_evaluator_refuted: the evaluator takes the internal symbols it is given for the user's; numbers of three digits as in C46). Proved, with symbols mapped back: the trees of every chain are its readings and have their values; with at most two operators exactly the readings' values are returned, which are the arithmetic ones for numbers of at most two digits; everything else is rejected."
  },
  {
   "property": "C60",
   "status": "proved",
   "theorems": [
    "C60_in_two_steps",
    "C60_group_by_group"
   ],
   "note": ""
  },
  {
   "property": "C61",
   "status": "partial",
   "theorems": [
    "C61_any_order",
    "C61_compact_any_order",
    "C61_parses_partial",
    "C61_cyclic_parses_partial",
    "C61_inner_node_refuted"
   ],
   "note": "For evaluators whose nulling method pushes its value, as in C20. Over the compact bocage for roots of complete parses, as long as the graph has less than 2^32 bytes, as in C19. C61_parses_partial: several parses on one simple bocage, with evaluations in between; the empty input is covered for evaluators that leave for the nulled start symbol alone what they leave for one that stands in a rule (the usual case: nulling pushes one value and the start symbol has no intermediate nulling rule), and missing for others. C61_cyclic_parses_partial: likewise for grammars with a cycle of unit rules, for inputs whose nodes are built in finite time. C61_inner_node_refuted: for a node that is not a root the claim would be false."
  }
 ]
}