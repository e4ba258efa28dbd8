{"id": "C01", "title": "parse() decides exactly the grammar's language", "statement": "For a processed (binarised, epsilon-free, remapped) grammar and any list of tokens that are terminals of it, `Recognizer::parse` on a fresh recognizer returns Ok(true) if and only if the grammar's start symbol derives exactly that token list.", "quantifier": "every well-formed processed grammar, every token list of every length", "why_tests_cant": "A unit test fixes one grammar and a few inputs; soundness and completeness range over all grammars and all strings, including all interactions of prediction, completion order, set dropping, gensyms and lookahead.", "anchors": ["gearley-utils/src/parse.rs:RecognizerParseExt::parse", "gearley-recognizer/src/recognizer.rs:Recognizer"]}
{"id": "C02", "title": "parse() is total: no panic and no endless completion loop", "statement": "For a well-formed processed grammar without unary cycles and tokens that map to internal terminals, `parse` never panics (no index out of range, no unwrap of None, no failed debug assertion) and its completion loop always terminates.", "quantifier": "every well-formed grammar, every token list", "why_tests_cant": "Panics and divergence hide in rare shapes of the chart (empty sets, dropped sets, deep unary chains); tests only show that particular inputs return.", "anchors": ["gearley-recognizer/src/recognizer.rs:complete_all_sums_entirely", "gearley-recognizer/src/recognizer.rs:complete", "gearley-recognizer/src/recognizer.rs:remove_unreachable_sets"]}
{"id": "C03", "title": "end_earleme() implements the viable-prefix property", "statement": "Driving the recognizer token by token without lookahead hints over a grammar in which every symbol is productive, `end_earleme` returns true for a token if and only if the tokens read so far can be extended to a sentence of the language; so an error is reported at the first token that makes the input hopeless.", "quantifier": "every well-formed productive grammar, every token sequence and every prefix of it", "why_tests_cant": "It is a statement about all possible continuations of every prefix.", "anchors": ["gearley-recognizer/src/recognizer.rs:end_earleme", "gearley-recognizer/src/recognizer.rs:is_exhausted"]}
{"id": "C04", "title": "is_finished() tells after every token whether the prefix is a sentence", "statement": "Without lookahead hints, after each successful end_earleme, `is_finished()` is true exactly when the tokens read so far form a sentence of the grammar.", "quantifier": "every well-formed grammar, every token sequence, every prefix", "why_tests_cant": "The final-item test looks only at the first item of the last set, which is right only because of a global invariant on the order of items; it must hold for all charts.", "anchors": ["gearley-recognizer/src/recognizer.rs:is_finished", "gearley-recognizer/src/recognizer.rs:finished_node", "gearley-recognizer/src/recognizer.rs:sort_medial_items"]}
{"id": "C05", "title": "Overlapping tokens: several scans at one location mean union", "statement": "If several tokens are scanned between one begin_earleme/end_earleme pair, the final is_finished() is true exactly when some choice of one scanned token per location is a sentence.", "quantifier": "every well-formed grammar, every sequence of finite token sets", "why_tests_cant": "The number of choices is exponential in the input length.", "anchors": ["gearley-recognizer/src/recognizer.rs:scan", "docs/README.md", "gearley-utils/src/parse.rs:parse_tokenizing"]}
{"id": "C06", "title": "Truthful lookahead never changes the verdict", "statement": "Running the recognizer with lookahead hints that name the really following token (as parse() does) yields the same final is_finished() as running it without any hint.", "quantifier": "every well-formed grammar whose FIRST/FOLLOW tables are sound, every token list, every subset of positions at which a hint is given", "why_tests_cant": "Lookahead rejects items in two places with different tables; that no rejected item could have mattered is a statement about all derivations.", "anchors": ["gearley-recognizer/src/recognizer.rs:complete_medial_items", "gearley-recognizer/src/recognizer.rs:complete_predictions", "gearley-default-grammar/src/lib.rs:lookahead_set", "gearley-default-grammar/src/lib.rs:lhs_lr_set", "gearley-recognizer/src/lookahead.rs"]}
{"id": "C07", "title": "The error index returned by parse() names the first offending token", "statement": "When `parse` returns Err(Parse{i}), tokens[..i] is a viable prefix and tokens[..=i] is not.", "quantifier": "every well-formed grammar, every token list that parse rejects", "why_tests_cant": "Depends on lookahead pruning against the next token for all grammars.", "anchors": ["gearley-utils/src/parse.rs:RecognizerParseExt::parse", "gearley-recognizer/src/recognizer.rs:end_earleme"]}
{"id": "C08", "title": "Dropping unreachable Earley sets is unobservable", "statement": "Removing sets that no current item originates in (done after every token to save memory) never changes any later answer: end_earleme, is_finished and the set of parse trees are the same as for a recognizer that keeps all sets.", "quantifier": "every well-formed grammar, every token sequence", "why_tests_cant": "Whether a dropped set is needed again depends on the entire future input.", "anchors": ["gearley-recognizer/src/recognizer.rs:remove_unreachable_sets", "gearley-vec2d/src/lib.rs:truncate"]}
{"id": "C09", "title": "reset() returns the recognizer to its initial behaviour", "statement": "After reset(), whatever was parsed before, the recognizer behaves like a newly created one on every input.", "quantifier": "every history of earlier calls, every later input", "why_tests_cant": "State left over from an earlier parse (hint, prediction rows) shows only for particular pairs of inputs.", "anchors": ["gearley-recognizer/src/recognizer.rs:reset"]}
{"id": "C10", "title": "The completion queue is a priority queue", "statement": "For any interleaving of pushes and pops, a pop returns a stored item of greatest (origin, dot), and over time exactly the pushed items come out, none lost or duplicated.", "quantifier": "every sequence of heap_push/heap_pop operations on items with arbitrary keys and payloads", "why_tests_cant": "Heap bugs need particular sizes and key patterns; the sift loops must be right for every array shape.", "anchors": ["gearley-recognizer/src/binary_heap.rs:heap_push", "gearley-recognizer/src/binary_heap.rs:heap_pop", "gearley-forest/src/item.rs:Ord for Item"]}
{"id": "C11", "title": "Each (symbol, origin) completion is offered once per location, in descending order", "statement": "Iterating next_sum() over a location yields groups with strictly descending (origin, symbol), and each group contains every completed item of that symbol and origin, so a client that accepts or rejects a group sees each group exactly once.", "quantifier": "every grammar whose unary rules go from a smaller to a larger symbol, every input", "why_tests_cant": "It depends on the interplay of rule numbering and heap order across the whole completion cascade.", "anchors": ["gearley-recognizer/src/recognizer.rs:next_sum", "gearley-recognizer/src/recognizer.rs:CompleteGroup", "gearley-default-grammar/src/lib.rs:sort_rules_by_lhs", "gearley-default-grammar/src/lib.rs:remap_symbols"]}
{"id": "C12", "title": "Symbol renumbering guarantees the order completion relies on", "statement": "DefaultGrammar::from_grammar renumbers symbols so that for every unary rule A ::= B over ordinary symbols A precedes B, which is what makes completion order (and hence one sum node per ambiguous symbol) right for every input grammar.", "quantifier": "every processed grammar handed to remap_symbols", "why_tests_cant": "A fixed test grammar may happen to be declared in the right order.", "anchors": ["gearley-default-grammar/src/lib.rs:remap_symbols"]}
{"id": "C13", "title": "Vec2d behaves like a list of finished sets plus one open set", "statement": "For any sequence of Vec2d operations, last/index/len/item_count/push/next_set/truncate/truncate_chart/clear/extend give the answers of the abstract value 'list of closed sets and one open set'; truncate(n) keeps the first n closed sets and the contents of the open set.", "quantifier": "every sequence of operations, every element type", "why_tests_cant": "Off-by-one errors between the flat array and the index array appear for particular sizes only.", "anchors": ["gearley-vec2d/src/lib.rs:Vec2d"]}
{"id": "C14", "title": "Forest soundness: every tree under the finished node is a parse of the input", "statement": "Every tree represented by the node returned by finished_node() is a parse tree of the grammar whose leaves are exactly the scanned tokens, in order, with the values given to scan().", "quantifier": "every well-formed grammar, every token/value sequence, every tree in the forest", "why_tests_cant": "The forest packs exponentially many trees.", "anchors": ["simple-bocage/src/bocage.rs:Forest for Bocage", "compact-bocage/src/bocage.rs:Forest for Bocage", "gearley-recognizer/src/recognizer.rs:finished_node"]}
{"id": "C15", "title": "Forest completeness: every parse of the input is in the forest, once", "statement": "Every parse tree of the input occurs under the finished node exactly once, whatever the order in which symbols are numbered; so the recognizer never represents an alternative of a sum twice.", "quantifier": "every well-formed grammar whose rules are sorted by left-hand side, every token sequence, every parse tree", "why_tests_cant": "The forest packs exponentially many trees; a missing alternative needs an ambiguous input with a particular completion order.", "anchors": ["simple-bocage/src/bocage.rs:sum", "compact-bocage/src/bocage.rs:sum", "gearley-recognizer/src/recognizer.rs:complete_entire_sum"]}
{"id": "C16", "title": "evaluate() on an unambiguous parse is the bottom-up fold of the parse tree", "statement": "For the root node of a complete parse that represents exactly one tree, Bocage::evaluate (simple bocage) returns exactly the value obtained by applying leaf/product/nulling bottom-up and left-to-right, where rules without an external origin are transparent (their values are spliced into the parent's arguments).", "quantifier": "every acyclic forest, every evaluator, every unambiguous root", "why_tests_cant": "The explicit work stack with parent indices must be right for all tree shapes.", "anchors": ["simple-bocage/src/traverse.rs:evaluate", "gearley-forest/src/evaluate.rs:Evaluate"]}
{"id": "C17", "title": "evaluate() on an ambiguous parse returns one value per parse tree", "statement": "For an ambiguous node, evaluate returns the list of the values of the represented trees.", "quantifier": "every forest, every evaluator", "why_tests_cant": "Depends on where in the tree the ambiguity sits.", "anchors": ["simple-bocage/src/traverse.rs:evaluate"]}
{"id": "C18", "title": "Compact graph codec: what is pushed is what is read", "statement": "For every node with 32-bit fields, pushing it on the byte graph and reading at the offset reported before the push returns the same node, its size is the number of bytes written, and all nodes written earlier still read the same.", "quantifier": "every sequence of nodes, all 32-bit field values", "why_tests_cant": "There are 2^64 field pairs per node kind and variable length encodings.", "anchors": ["compact-bocage/src/graph.rs:push", "compact-bocage/src/graph.rs:get", "compact-bocage/src/graph.rs:get_node_size", "compact-bocage/src/graph.rs:push_expanded"]}
{"id": "C19", "title": "The compact and the simple bocage represent the same parses", "statement": "Driving the recognizer with the compact bocage gives the same recognition answers and the same set of parse trees as with the simple bocage, and evaluate gives the same result on both.", "quantifier": "every well-formed grammar, every input, every evaluator", "why_tests_cant": "Handles are byte offsets in one and indices in the other; agreement must hold for all forests.", "anchors": ["compact-bocage/src/bocage.rs", "simple-bocage/src/bocage.rs", "compact-bocage/src/traverse.rs"]}
{"id": "C20", "title": "Eliminated nullable children are restored in place", "statement": "When a unary rule stands for a binary rule whose left or right symbol was nulled, evaluation passes the nulling value of that symbol on the recorded side of the present child, exactly once, however often the node is visited.", "quantifier": "every forest, every nulling record, both directions", "why_tests_cant": "Depends on node sharing and visiting order.", "anchors": ["simple-bocage/src/bocage.rs:postprocess_product_tree_node", "compact-bocage/src/bocage.rs:postprocess_product_tree_node"]}
{"id": "C21", "title": "Recognition does not depend on the forest", "statement": "For any two Forest implementations that do not panic, all recognizer answers (end_earleme, is_finished, is_exhausted, earleme, predicted symbols, item dots and origins) are the same for the same calls.", "quantifier": "every pair of forest implementations, every grammar, every sequence of API calls", "why_tests_cant": "Forest is an open trait; tests can only instantiate a few.", "anchors": ["gearley-forest/src/forest.rs:Forest", "gearley-recognizer/src/recognizer.rs:Recognizer"]}
{"id": "C22", "title": "prediction_row(A) is the left-corner closure of A", "statement": "prediction_row(A) contains B exactly when B is A or a symbol that can appear leftmost in a string derived from A by one or more rule applications, with generated intermediate symbols skipped.", "quantifier": "every well-formed processed grammar, all symbol pairs", "why_tests_cant": "Closure over an arbitrary relation.", "anchors": ["gearley-default-grammar/src/lib.rs:populate_prediction_matrix", "gearley-default-grammar/src/lib.rs:prediction_row"]}
{"id": "C23", "title": "completions(s)/gen_completion(s) list exactly the rules starting with s", "statement": "completions(s) contains one transition for every rule whose first right-hand symbol is s, none other, all binary rules before all unary ones, each with the symbol that has to be predicted for it; gen_completion does the same for generated symbols.", "quantifier": "every well-formed processed grammar, every symbol", "why_tests_cant": "Table construction must be right for any rule order and any gensym chain.", "anchors": ["gearley-default-grammar/src/lib.rs:compute_completion_table", "gearley-default-grammar/src/lib.rs:completions", "gearley-default-grammar/src/lib.rs:gen_completion"]}
{"id": "C24", "title": "Generated-symbol detection is sound", "statement": "A symbol classified as generated occurs first in exactly one context, so that looking up a single unary and a single binary transition for it loses no rule.", "quantifier": "every processed grammar", "why_tests_cant": "Depends on unusual rule combinations (self recursion, unary uses).", "anchors": ["gearley-default-grammar/src/lib.rs:find_gensyms", "gearley-default-grammar/src/lib.rs:compute_completion_table"]}
{"id": "C25", "title": "parse_terminal_list outcome classification", "statement": "parse_terminal_list returns Ok(true) exactly if all words are known and the resulting token list is a sentence, Err(Tokenize) exactly if some word is unknown (naming the first one), and otherwise Err(Finish); it never returns Ok(false) or Err(Parse).", "quantifier": "every grammar, name map and word list", "why_tests_cant": "Ranges over all inputs and error combinations.", "anchors": ["gearley-utils/src/parse.rs:parse_terminal_list"]}
{"id": "C26", "title": "parse_tokenizing outcome classification", "statement": "parse_tokenizing returns Ok(true) exactly if some assignment of one lexer terminal per character is a sentence, Err(Parse{i}) with i the first character after which no continuation exists, otherwise Err(Finish); never Ok(false).", "quantifier": "every grammar, every lexer map, every character string", "why_tests_cant": "Ranges over all inputs.", "anchors": ["gearley-utils/src/parse.rs:parse_tokenizing"]}
{"id": "C27", "title": "CartesianProduct enumerates every combination exactly once", "statement": "After pushing non-empty slices, repeatedly reading as_slice and calling advance visits every element of the cartesian product exactly once, first factor fastest, and advance returns false exactly after the last one, leaving the iterator at the first combination again.", "quantifier": "every list of non-empty slices", "why_tests_cant": "Number of factors and sizes are unbounded.", "anchors": ["gearley-utils/src/cartesian_product.rs:CartesianProduct"]}
{"id": "C28", "title": "CartesianProduct::extend appends factors", "statement": "extend(product) on any CartesianProduct has the same effect as pushing the slices one by one.", "quantifier": "every earlier content and every appended list", "why_tests_cant": "The unit test only extends an empty product.", "anchors": ["gearley-utils/src/cartesian_product.rs:extend"]}
{"id": "C29", "title": "events() reports the event of each predicted symbol and each item", "statement": "events() yields, for each predicted symbol, the event attached to the prediction of that symbol and, for each medial item, the event attached to the item's dot position, as trace() does for tracing info.", "quantifier": "every grammar with events, every chart", "why_tests_cant": "Wrong columns go unnoticed when tests attach no events.", "anchors": ["gearley-recognizer/src/event.rs:events", "gearley-default-grammar/src/lib.rs:events", "gearley-default-grammar/src/lib.rs:populate_prediction_events"]}
{"id": "C30", "title": "predicted_symbols() are exactly the acceptable next tokens", "statement": "After begin_earleme and without hints, a terminal is accepted (scanning only it makes end_earleme return true) exactly if predicted_symbols() contains it.", "quantifier": "every well-formed grammar, every viable prefix, every terminal", "why_tests_cant": "Ranges over all charts.", "anchors": ["gearley-recognizer/src/recognizer.rs:predicted_symbols", "gearley-recognizer/src/recognizer.rs:complete"]}
{"id": "C31", "title": "expected_terminals() lists exactly the terminals acceptable next", "statement": "expected_terminals() yields all and only the terminals that can be scanned next.", "quantifier": "every well-formed grammar and prefix", "why_tests_cant": "Missing terminals show only for certain states.", "anchors": ["gearley-recognizer/src/event.rs:expected_terminals"]}
{"id": "C32", "title": "An exhausted recognizer stays exhausted and keeps answering", "statement": "Once end_earleme has returned false, any further begin_earleme/scan/end_earleme again returns false and does not panic.", "quantifier": "every grammar, every failing input, every later sequence of calls", "why_tests_cant": "The failure needs a particular number of retries after failure.", "anchors": ["gearley-recognizer/src/recognizer.rs:end_earleme", "gearley-recognizer/src/recognizer.rs:begin_earleme", "gearley-recognizer/src/recognizer.rs:prediction_pass"]}
{"id": "C33", "title": "is_finished() before any input is true exactly if the empty string is a sentence", "statement": "On a recognizer that has not begun any earleme, is_finished() is true exactly when the start symbol is nullable.", "quantifier": "every grammar", "why_tests_cant": "Needs a grammar with nullable symbols but non-nullable start.", "anchors": ["gearley-recognizer/src/recognizer.rs:finished_node", "gearley-default-grammar/src/lib.rs:populate_nulling"]}
{"id": "C34", "title": "earleme() is the number of locations read", "statement": "earleme() returns the current location number, i.e. the number of successfully read locations.", "quantifier": "every grammar and input", "why_tests_cant": "Only differs after sets have been dropped.", "anchors": ["gearley-recognizer/src/recognizer.rs:earleme", "gearley-recognizer/src/recognizer.rs:remove_unreachable_sets"]}
{"id": "C35", "title": "Nulling handles always denote the nulled symbol", "statement": "For every symbol occurring in the grammar's nulling records, forest.nulling(symbol) is in range and evaluates to the nulling value of that symbol, or to the values of its two halves if it is an intermediate symbol.", "quantifier": "every ForestInfo", "why_tests_cant": "Ranges over all nulling tables.", "anchors": ["gearley-grammar/src/lib.rs:max_nulling_symbol", "simple-bocage/src/bocage.rs:initialize_nulling", "compact-bocage/src/bocage.rs:initialize_nulling"]}
{"id": "C36", "title": "Items are totally ordered by (origin, dot)", "statement": "Item comparison is a total order consistent with equality, ignores the node, and compares origin first.", "quantifier": "all pairs and triples of items", "why_tests_cant": "Infinitely many pairs.", "anchors": ["gearley-forest/src/item.rs"]}
{"id": "C37", "title": "Rejecting completion groups removes exactly the derivations through them", "statement": "If a client drives completion with next_sum and calls skip_entire_sum on the groups it rejects, the input is accepted exactly if it has a parse tree in which no constituent's symbol is rejected at the location where the constituent ends; which symbols are rejected may differ from location to location.", "quantifier": "every well-formed grammar, every input (also with several tokens per location), every rejection predicate on symbol and end location", "why_tests_cant": "All subsets of constituents can be rejected.", "anchors": ["gearley-recognizer/src/recognizer.rs:skip_entire_sum", "gearley-recognizer/src/recognizer.rs:complete_entire_sum", "gearley-recognizer/src/recognizer.rs:next_sum"]}
{"id": "C38", "title": "Capacity hints are never too small and respect the memory limit", "statement": "DefaultPerfHint yields a set capacity of at least 32 and an item capacity of 16 times that for every memory limit, token limit and symbol count, without panicking; whenever the set capacity exceeds that minimum, the estimated memory use (sets, indices, completions and forest) is within the memory limit.", "quantifier": "all hint values for which the byte counts fit the machine word", "why_tests_cant": "All integers.", "anchors": ["gearley-recognizer/src/perf_hint.rs"]}
{"id": "C39", "title": "An evaluator's nulling() may push any number of values", "statement": "evaluate is well defined whatever number of values Evaluate::nulling pushes to the result vector.", "quantifier": "every evaluator", "why_tests_cant": "Tests only use evaluators that push one value.", "anchors": ["simple-bocage/src/traverse.rs:evaluate", "gearley-forest/src/evaluate.rs:Evaluate"]}
{"id": "C40", "title": "trace() reports genuine dotted rules of the chart", "statement": "At a location that has been begun, trace() yields for each medial item of the current set the tracing record of its dot and its origin set, and for each predicted symbol the tracing record of its prediction, and never panics; without hints these are exactly the symbols that may start here and the rules whose first symbol may end here.", "quantifier": "every grammar and chart", "why_tests_cant": "Ranges over all charts.", "anchors": ["gearley-recognizer/src/event.rs:trace", "gearley-default-grammar/src/lib.rs:populate_prediction_events"]}
{"id": "C41", "title": "Lookahead tables contain every true successor", "statement": "lookahead_set(dot) contains every terminal that can begin what follows the dot (FIRST of the second symbol, or FOLLOW of the left-hand side when the rule is complete) as far as the FIRST/FOLLOW sets supplied by the cfg library do, and the table lookup never mixes up FIRST and FOLLOW rows.", "quantifier": "every grammar, every dot, every symbol", "why_tests_cant": "Index arithmetic over an interleaved matrix for all symbols.", "anchors": ["gearley-default-grammar/src/lib.rs:populate_lr_sets", "gearley-default-grammar/src/lib.rs:lookahead_set", "gearley-default-grammar/src/lib.rs:lhs_lr_set"]}
{"id": "C42", "title": "Serialised grammars behave like the original", "statement": "A DefaultGrammar that is serialised and deserialised gives the same answers.", "quantifier": "every grammar", "why_tests_cant": "All grammars.", "anchors": ["gearley-default-grammar/src/lib.rs:DefaultGrammar derive(Serialize, Deserialize)"]}
{"id": "C43", "title": "Grammar table construction is total", "statement": "Building the recognizer's grammar from a well-formed processed grammar never panics and always terminates, and gives one result.", "quantifier": "every well-formed processed grammar with one root, every symbol map, every list of nulling rules over known symbols, all FIRST/FOLLOW sets", "why_tests_cant": "Ranges over all grammars; the climb through generated symbols loops forever on cyclic chains.", "anchors": ["gearley-default-grammar/src/lib.rs:from_processed_grammars", "gearley-default-grammar/src/lib.rs:populate_prediction_matrix", "gearley-default-grammar/src/lib.rs:compute_completion_table"]}
{"id": "C44", "title": "Forest::leaf is told the number of the token", "statement": "The position given to Forest::leaf for the n-th scanned location of a parse is n, whatever sets the recognizer dropped before.", "quantifier": "every grammar, every input, every forest", "why_tests_cant": "Sets are dropped depending on the whole history.", "anchors": ["gearley-recognizer/src/recognizer.rs:scan", "gearley-recognizer/src/recognizer.rs:remove_unreachable_sets"]}
{"id": "C45", "title": "Evaluate::leaf is told the symbol and the number of every token", "statement": "When an input with one parse tree is parsed with parse(tokens) and evaluated, leaf is called once for every token, and the values put together from left to right name the symbols given to parse, with the indices of the tokens.", "quantifier": "every grammar, every input with one parse tree", "why_tests_cant": "Symbols are renumbered depending on the whole grammar; all inputs.", "anchors": ["simple-bocage/src/traverse.rs:evaluate", "gearley-forest/src/evaluate.rs:Evaluate", "gearley-utils/src/parse.rs:parse"]}
{"id": "C46", "title": "The example calculator computes", "statement": "For every arithmetic expression over + - * / ( ) and decimal numbers, tokenize, parse and evaluate of the example grammar precedenced_math give its value (one value), with the usual precedence, grouping to the left and division rounding towards zero; a computation that does not fit in 32 bits or divides by zero panics; for every other string the client panics.", "quantifier": "every string", "why_tests_cant": "There are infinitely many expressions; a test evaluates one.", "anchors": ["gearley-example-grammars/src/precedenced_math/mod.rs:Evaluator", "gearley-example-grammars/src/precedenced_math/mod.rs:tokenize", "gearley/tests/tests.rs"]}
{"id": "C47", "title": "The web page's parse answers what the input deserves", "statement": "parse(input, grammar, mode) never answers 'failed to finish the parse'. Mode basic: the log exactly if the words of the input, cut at single spaces, name a sentence; a tokenize failure naming the first unknown word if there is one; otherwise 'failed to get finished node'. Mode c-lexer: the same about the names of the tokens that have one. Mode advanced: the log exactly if some choice of terminals for the characters is a sentence, a parse error naming the first character after which no choice is viable. A grammar that cannot be read is answered by its load error, an unknown mode by 'Unknown mode'.", "quantifier": "every input, every grammar text, every mode, every state of the page", "why_tests_cant": "All inputs and grammars.", "anchors": ["gearley-wasm/src/lib.rs:parse", "gearley-wasm/src/lib.rs:c_lexer", "gearley-utils/src/parse.rs:parse_terminal_list", "gearley-utils/src/parse.rs:parse_tokenizing"]}
{"id": "C48", "title": "Only terminals are accepted as input", "statement": "A token sequence (or word list) that contains a nonterminal is rejected.", "quantifier": "every grammar, every token sequence", "why_tests_cant": "All grammars and inputs.", "anchors": ["gearley-utils/src/parse.rs:parse", "gearley-utils/src/parse.rs:parse_terminal_list", "gearley-recognizer/src/recognizer.rs:scan"]}
{"id": "C49", "title": "Mode c-lexer judges the whole input", "statement": "If parse answers with the log in mode c-lexer, every token of the input is a word of the sentence it found.", "quantifier": "every input, every grammar", "why_tests_cant": "All inputs.", "anchors": ["gearley-wasm/src/lib.rs:c_lexer", "gearley-wasm/src/lib.rs:parse"]}
{"id": "C50", "title": "The web page's answer depends only on the arguments", "statement": "Equal calls of parse get equal answers, whatever was called before.", "quantifier": "every history of calls", "why_tests_cant": "Ranges over all histories of calls on one page.", "anchors": ["gearley-wasm/src/lib.rs:parse", "gearley-wasm/src/lib.rs:get_logs", "gearley-wasm/src/lib.rs:init_logger"]}
{"id": "C51", "title": "Recognizers are faithful to the user's own grammar", "statement": "Building the internal grammar from a user's grammar and parsing with it judges by the user's grammar: parse accepts exactly the token sequences the user's start symbol derives, goes on exactly as long as a viable prefix was read, and reports an error only near the first token after which no sentence is possible. Wrapping, binarisation, elimination of nulling rules, renumbering and sorting are not observable.", "quantifier": "every user grammar, every token sequence over its terminals", "why_tests_cant": "Ranges over all grammars and inputs.", "anchors": ["gearley-default-grammar/src/lib.rs:from_grammar", "gearley-default-grammar/src/lib.rs:remap_symbols", "gearley-utils/src/parse.rs:parse"]}
{"id": "C52", "title": "Every grammar is served", "statement": "For every user grammar with a start symbol, building the internal grammar does not panic, and parse of any sequence of the grammar's terminals ends and does not panic.", "quantifier": "every user grammar, every sequence of its terminals", "why_tests_cant": "Ranges over all grammars.", "anchors": ["gearley-default-grammar/src/lib.rs:from_grammar", "gearley-default-grammar/src/lib.rs:populate_nulling", "gearley-default-grammar/src/lib.rs:to_internal", "gearley-utils/src/parse.rs:parse", "gearley-recognizer/src/recognizer.rs:complete_all_sums_entirely"]}
{"id": "C53", "title": "The symbols are sorted by an order", "statement": "The comparison by which the symbols are renumbered is an order of the kind sorting requires: being equal is transitive, so the numbering does not depend on the sorting algorithm and sorting cannot panic.", "quantifier": "every grammar, all triples of symbols", "why_tests_cant": "Ranges over all grammars and triples.", "anchors": ["gearley-default-grammar/src/lib.rs:remap_symbols"]}
{"id": "C54", "title": "Evaluation gives the value of the user's own parse tree", "statement": "The parse trees under the finished node are one for one the parse trees of the input in the grammar the user wrote, with the user's rule identifiers and all children in place, nulled ones included; an input with one parse tree is evaluated to the value of that tree: leaf for its tokens, product with the identifier of the rule and the values of all its children, nulling for symbols that derive the empty string there. Wrapping, binarisation and elimination of nulling rules are not observable.", "quantifier": "every user grammar whose rules have different identifiers, every token sequence, every evaluator, any number of evaluations", "why_tests_cant": "Ranges over all grammars, inputs and evaluators.", "anchors": ["gearley-default-grammar/src/lib.rs:from_grammar", "gearley-default-grammar/src/lib.rs:populate_nulling", "gearley-default-grammar/src/lib.rs:populate_grammar_with_history", "simple-bocage/src/traverse.rs:evaluate", "compact-bocage/src/traverse.rs:evaluate"]}
{"id": "C55", "title": "A parse costs at most cubic time and space", "statement": "For every grammar, and every bound on the tokens per location, there is a constant k such that after n locations the methods of the forest have been called at most k n^3 times and the recognizer holds at most k (n+1)^2 items between locations; so forests whose methods add a bounded amount, as both bocages do, have grown at most cubically.", "quantifier": "every grammar, every client that reads locations with or without hints and rejects any groups, every forest, every input", "why_tests_cant": "A test measures single inputs; the constant must serve all of them.", "anchors": ["gearley-recognizer/src/recognizer.rs:end_earleme", "gearley-recognizer/src/recognizer.rs:complete_all_sums_entirely", "gearley-utils/src/parse.rs:parse", "simple-bocage/src/bocage.rs:Forest", "compact-bocage/src/bocage.rs:Forest", "README.md"]}
{"id": "C56", "title": "Parsing LR(1) grammars is linear", "statement": "README.md promises, for LR(1) grammars, time O(n log n) and memory linear in the input length n: for every LR(1) grammar there is a constant k such that after n tokens, with or without lookahead hints, the forest's methods were called at most k n log n times, and the recognizer's items and the forest together take at most k n.", "quantifier": "all LR(1) grammars, all inputs, all clients (with and without hints), all forests", "why_tests_cant": "A test measures some grammars on some lengths; the claim is asymptotic and for the whole class of grammars.", "anchors": ["README.md", "gearley-recognizer/src/recognizer.rs:complete_all_sums_entirely", "gearley-utils/src/parse.rs:parse_tokenizing"]}
{"id": "C57", "title": "The grammar interface describes the user's grammar", "statement": "Whenever the internal grammar is built, the accessors of the Grammar trait describe it truthfully: every symbol that derives something non-empty is translated, and translating back gives the same symbol; every internal number stands for a symbol; the reported start symbol is the user's; each internal rule has the identifier and left-hand side of a useful rule the user wrote, or no identifier and a left-hand side the user does not know; every useful rule that derives something non-empty is there; sizes, wrapper symbols, second symbols and eliminated symbols are those of the processed rules, and asking for a rule that does not exist panics (or gives nothing, for nulling).", "quantifier": "every user grammar, every symbol, every rule number", "why_tests_cant": "Ranges over all grammars.", "anchors": ["gearley-default-grammar/src/lib.rs:from_grammar", "gearley-default-grammar/src/lib.rs:to_internal", "gearley-default-grammar/src/lib.rs:to_external", "gearley-default-grammar/src/lib.rs:externalized_start_sym", "gearley-default-grammar/src/lib.rs:external_origin", "gearley-default-grammar/src/lib.rs:get_lhs", "gearley-default-grammar/src/lib.rs:get_rhs1", "gearley-default-grammar/src/lib.rs:nulling", "gearley-grammar/src/lib.rs:max_nulling_symbol"]}
{"id": "C58", "title": "Evaluation does not show the wrapper", "statement": "The rule that wraps the user's start symbol between the markers of start and end of input is not observable when a finished node is evaluated: for a non-empty input the result does not depend on what the evaluator's leaf method returns for the start-of-input marker, and every reading of the start symbol contributes to the result.", "quantifier": "every grammar, every non-empty input, every evaluator, both bocages", "why_tests_cant": "Ranges over all grammars, inputs and evaluators; the marker shows up only when the start symbol is completed more than once at the end of input.", "anchors": ["simple-bocage/src/traverse.rs:evaluate", "compact-bocage/src/traverse.rs:evaluate", "gearley-recognizer/src/recognizer.rs:finished_node", "gearley-default-grammar/src/lib.rs:remap_symbols"]}
{"id": "C59", "title": "The ambiguous calculator evaluates every reading", "statement": "Tokenising a text, parsing it with the ambiguous example grammar and evaluating the finished node gives, for a chain of decimal numbers and the operators + - * /, the values of all ways of bracketing it, each once and nothing else, in 32-bit arithmetic with division rounding towards zero (a reading that overflows or divides by zero panics); any other string is rejected.", "quantifier": "every string, every number of operators, every length of numbers", "why_tests_cant": "Unbounded texts; the number of readings grows exponentially.", "anchors": ["gearley-example-grammars/src/ambiguous_math/mod.rs:grammar", "gearley-example-grammars/src/ambiguous_math/mod.rs:Evaluator", "gearley-example-grammars/src/ambiguous_math/mod.rs:tokenize", "gearley/tests/tests.rs:test_ambiguous_arithmetic"]}
{"id": "C60", "title": "Completing by hand equals ending the earleme", "statement": "In every state of a recognizer, ending the earleme has the same effect, on the state and on the answers of all later calls, as checking that the parse is not exhausted and then completing all sums and advancing; and as accepting every sum that next_sum offers one by one until it offers none, clearing the hint and advancing.", "quantifier": "every state (reached or not), every grammar, every forest, every later sequence of calls", "why_tests_cant": "Ranges over all states and over all continuations; the number of sums at one location is unbounded.", "anchors": ["gearley-recognizer/src/recognizer.rs:end_earleme", "gearley-recognizer/src/recognizer.rs:next_sum", "gearley-recognizer/src/recognizer.rs:complete_all_sums_entirely", "gearley-recognizer/src/recognizer.rs:complete_entire_sum", "gearley-recognizer/src/recognizer.rs:advance_after_completion"]}
{"id": "C61", "title": "Evaluating a forest does not disturb it", "statement": "Although evaluating takes the forest mutably and rewrites nodes in it, a forest can be used again after any number of evaluations: a client may make nodes, evaluate roots, make further nodes over old ones and evaluate again, in any order and each time with another evaluator, and every evaluation gives what it would give had none of the earlier evaluations happened.", "quantifier": "every sequence of node-making calls and evaluations, every choice of evaluators", "why_tests_cant": "Ranges over all interleavings of calls and over all evaluators; a wrong write during an evaluation shows only in a later evaluation of a node that shares the written one.", "anchors": ["simple-bocage/src/traverse.rs:evaluate", "simple-bocage/src/traverse.rs:postprocess_product_tree_node", "simple-bocage/src/bocage.rs:product", "simple-bocage/src/bocage.rs:sum", "compact-bocage/src/traverse.rs:evaluate", "gearley-recognizer/src/recognizer.rs:into_forest", "gearley-recognizer/src/recognizer.rs:with_forest"]}
