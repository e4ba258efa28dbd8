# Formal model of gearley in Rocq (Coq 8.16.1)

`properties.jsonl` lists the properties in words, `MANIFEST.json` which theorems state
them, `seeded/LOG.jsonl` which wrong programs the theorems were tried on.

## 1. What is modelled

Everything below is a hand translation of the Rust sources in `/repo` to total
Gallina functions. Every definition cites the file and lines it models.

| Coq file | Rust source |
|---|---|
| `Base.v` | result type for panics (`Panic`) and the loop bound (`NoFuel`), list indexing that panics |
| `Vec2d.v` | `gearley-vec2d/src/lib.rs` |
| `Item.v`, `Heap.v` | `gearley-forest/src/item.rs`, `gearley-recognizer/src/binary_heap.rs` |
| `BitMatrix.v` | the operations of the crate `bit-matrix` that `/repo` uses |
| `Grammar.v`, `DefaultGrammar.v` | `gearley-grammar/src/lib.rs`, `gearley-default-grammar/src/lib.rs` (table construction from the processed grammar on, `remap_symbols`' comparator, `find_gensyms`) |
| `FromGrammar.v` | `from_grammar`, `remap_symbols` of the same file; the calls of the `cfg` crate are the fields of a record |
| `Forest.v` | `gearley-forest/src/{forest,null_forest}.rs`; also a symbolic forest used in proofs only |
| `Recognizer.v` | `gearley-recognizer/src/{recognizer,event,lookahead,predict}.rs` |
| `PerfHint.v` | `gearley-recognizer/src/perf_hint.rs` |
| `Parse.v` | `gearley-utils/src/parse.rs` |
| `Cartesian.v` | `gearley-utils/src/cartesian_product.rs` |
| `SimpleBocage.v` | `simple-bocage/src/{node,bocage,traverse}.rs`, `gearley-forest/src/evaluate.rs` |
| `CompactGraph.v`, `CompactBocage.v` | `compact-bocage/src/{node,graph}.rs`, `compact-bocage/src/{bocage,traverse}.rs` |
| `ExampleMath.v`, `MathTables.v` | `gearley-example-grammars/src/{precedenced,ambiguous}_math/mod.rs`, the client of `gearley/tests/tests.rs`; the processed grammars are written down by hand |
| `Wasm.v` | `gearley-wasm/src/lib.rs`: `parse`, the table of `c_lexer`, the log; loading a grammar and cutting C text into tokens are parameters |
| `Drive.v`, `Session.v` | clients: location by location as the documentation asks for; arbitrary sequences of calls |

Specifications, independent of the model's helpers

| Coq file | content |
|---|---|
| `Spec.v` | grammars as lists of rules, derivations, parse trees, well-formedness |
| `CfgSpec.v` | what the processed grammar looks like (`processed`, `built`), sentences, viable prefixes, what FIRST and FOLLOW sets must contain |
| `CrateSpec.v` | what `from_grammar` expects of the `cfg` crate: each of its transformations as a relation between the grammar before and after |
| `ReferenceCrate.v` | functions that do what `CrateSpec.v` describes, for every grammar; they model no code of `/repo` |
| `UserTreeSpec.v` | the parse trees of the user's own grammar and their values |
| `UserSpec.v` | tokens, sentences and viable prefixes of the user's own grammar; what `from_grammar` makes of it |
| `ClientSpec.v` | inputs of a client: tokens, hints, rejected groups |
| `ForestSpec.v` | what the recognizer needs of a forest implementation |
| `TreeSpec.v`, `CompactSpec.v` | parse trees of an input; trees found below a node of the simple and of the compact bocage |
| `CompactForestSpec.v` | values of a forest built by calls, read off the compact bocage; the bytes an evaluation appends |
| `EvalSpec.v`, `ForestProg.v` | the value of a parse tree; forests built by calls of the trait |
| `GroupSpec.v`, `ProbeSpec.v` | what a client sees who asks for groups of completed items, or inspects the recognizer between locations |
| `CostSpec.v` | a forest that counts the calls of its methods; forests that grow by at most a constant per call |
| `LRSpec.v` | rightmost derivations, LR(1) grammars after Knuth; forests that grow with every summand |
| `CartesianSpec.v` | enumeration of a product |
| `MathSpec.v` | arithmetic expressions, their text and their value |
| `WasmSpec.v` | words of a text, the answer an input deserves, histories of calls |

Theorems about the properties stand alone in `Props*.v`, each closed by a lemma, each
with `Print Assumptions` and an `Example` showing that its hypotheses can be met
(`ExampleGrammars.v`, with the boolean tests of `Check.v`).

Modelling conventions

* A Rust panic (index out of range, `unwrap` of `None`, failed `debug_assert`,
  `todo!`) is the value `Panic`. `usize`/`u32` are `nat` in the recognizer
  (no overflow); the compact graph has bytes and 32-bit fields that wrap.
* The only loops whose termination is not evident are the completion loop, the
  evaluation loops and the gensym chain of the table construction. They take a fuel
  argument and return `NoFuel` when it runs out. Theorems say that some fuel suffices
  and that the result does not depend on it (`total n f r`: `NoFuel` below `n`, `r` from
  `n` on).
* Bit matrices and bit vectors are lists of Booleans.
* Fixed-width overflow, allocation failure and alignment of `bytemuck` casts are outside
  the model unless a theorem says otherwise.

## 2. What is not modelled

* The crates `cfg`, `cfg-symbol`, `cfg-history`, `bit-matrix`: their sources are not
  available here. The grammar transformations they perform (`make_proper`, `wrap_input`,
  `binarize_and_eliminate_nulling_rules`, the renumbering) are represented by a contract
  (`crate_contract` in `CrateSpec.v`). Most theorems speak of their output, a processed
  grammar satisfying stated well-formedness conditions (`processed` in `CfgSpec.v`); C51
  derives these conditions from the contract; FIRST and FOLLOW sets are an oracle that must contain the true sets
  (`first_sets_cover`, `follow_sets_cover`). `BitMatrix::transitive_closure` is modelled
  as Warshall's algorithm.
* `gearley-wasm`'s allocator, panic hook and lists of examples; the crates `cfg-load` and
  `c_lexer_logos` it calls.
* `gearley-load` (does not compile as it stands: an unfinished match arm and an undefined
  macro), `gearley` (re-exports), `serde` derives; `tokenizing_recognizer.rs`,
  `partial_borrow.rs`, `simple_compact_evaluator.rs` (bodies commented out); `debug.rs`
  and the `println!`s; the trait `Order` of the bocages (nothing calls it).
* Leo items (`LEO = true` runs into `todo!()`); the model has the switch and panics.

## 3. Properties: model and proof

| id | model and proof |
|---|---|
| C01, C02 | `parse` of `Parse.v`; exact chart invariant (items of set j = derivable dotted rules with their trees), induction on locations, inner invariant for the completion loop (`Core1`–`Core6`, `Recog`); then equivalence with derivations (`ChartSpec`). No `Panic` by the same invariant; termination by a weight that decreases with every processed completion (`Core2`) |
| C03, C04, C05 | chart invariant for sets of scanned tokens per location; productivity; sortedness of the set and minimality of the eof symbol (`RecogFacts`) |
| C06 | pruned chart keeps all parses with which the hints agree |
| C07 | refuted by a concrete grammar; weaker bound proved |
| C08 | two runs in lockstep, one dropping sets, one keeping them (`Drop.v`) |
| C09 | refuted by a concrete history; proved for histories that leave no hint (`RowsInv.v`: stale prediction rows stay closed) |
| C10, C13, C36 | heap shape + permutation; refinement to (list of lists, list); direct |
| C11 | groups descend under the unary-order hypothesis (`Uniq.v`, `Groups.v`); order shown necessary |
| C12, C24 | refuted by concrete grammars; what the comparator and the classification do guarantee (`RemapFacts.v`) |
| C14, C15 | denotation of nodes as lists of trees (`Den.v`); soundness and completeness over the symbolic forest (`Trees.v`); no tree twice and all trees of the input under one node, by an invariant on (item, tree) pairs that needs no order of the symbols (`Uniq.v`); transferred to the simple bocage by simulation (`Sim.v`, `SimpleProofs.v`) |
| C16, C17, C20, C39 | stack machine against recursive semantics (`SimpleEval.v`, `SimpleValue.v`), then against trees (`ForestValue.v`, `SimpleTop.v`); the same for the compact bocage (`CompactMore.v`, `CompactWhole.v`); C17, C39 refuted + what holds |
| C18 | byte-level round trip (`CompactGraphProofs.v`) |
| C19 | the compact bocage simulates the symbolic forest (`CompactProofs.v`), its machine computes the same values (`CompactEval.v`, `CompactValue.v`); refuted for ambiguous and for empty input; for ambiguous forests the same up to order if the evaluator ignores the order of arguments |
| C21 | simulation between recognizers over two forests (`Sim.v`, `SessionProofs.v`) |
| C22, C23, C41, C43 | Warshall correctness, gensym chain, table lemmas (`TablesProofs.v`, `TableFacts.v`, `TablesTotal.v`) |
| C25, C26 | case analysis over `Parse.v` using the chart (`ParseFacts.v`) |
| C27, C28 | mixed radix counter (`CartesianProofs.v`); `extend` refuted |
| C29, C31, C33, C34, C40 | `Probe.v`: what the inspecting methods report at every location; refuted where they report something else than they should |
| C30 | corollary of the chart invariant (`PredFacts.v`) |
| C32 | refuted (panic after enough retries); otherwise stays exhausted (`Dead.v`) |
| C35 | handles of nulled symbols as children; as a root refuted |
| C37 | the chart is parameterised by a filter on completed groups |
| C38 | integer arithmetic (`PerfHintProofs.v`) |
| C42 | cannot be expressed: serde derive output is not in the repository |
| C44 | refuted by a forest that records positions; what the position is, by following the part of a forest that only `leaf` changes (`Position.v`) |
| C45 | an evaluator that collects what `leaf` is given, by C16 (`PropLemmas7.v`); refuted for the user's symbols |
| C46 | expressions as syntax trees; a machine reads their tokens back, so the text determines the expression; every parse tree is that of an expression (`MathProofs.v`); value by induction, with C16 and C01 for the rest |
| C47, C49, C50 | case analysis over `Wasm.v`, with C25 and C26 (`PropLemmas8.v`); C49, C50 refuted by concrete calls |
| C48 | chart invariant for any symbols as tokens; refuted in every grammar by its start symbol |
| C51 | each transformation keeps the language (`CrateFacts.v`); the outcome is a processed grammar, in particular `find_gensyms` finds exactly the generated symbols that keep a rule of two symbols, and unary rules have no cycle (`GensymFacts.v`, `CrateProcessed.v`); then C01, C03, C07. The contract is kept by a crate written in Coq, for every grammar (`ReferenceFacts.v`) |
| C52 | refuted by grammars with crates that keep the contract (`ExampleCrate.v`); which grammars make `from_grammar` panic is settled exactly: a prefix of a rule that is always empty gets a generated symbol without rules, which `nulling_intermediate` translates in vain (`CratePanic.v`); for cycles by an invariant of the completion loop (`Cycle.v`). With cycles in general: the run of the recognizer is exact whether or not the unary rules have a cycle (`CyclicRun.v`), and a run that ends has put a bound on the size of the trees of its input (its sets hold finitely many items, and each stands for finitely many trees, `Cyclic.v`); a cycle in a sentence gives trees of every size, so no run ends (`CyclicUser.v`), and without one every run does (`CyclicEnds.v`): only a symbol that may stand after a beginning of the input and derives what comes next, or that lookahead lets through, is ever completed (`CyclicLive.v`); whether a symbol may is decidable, with no appeal to excluded middle (`Decide.v`); so these symbols can be ranked if no cycle goes through them, and completion goes down the ranks (`CyclicInput.v`). This holds input by input, whatever other cycles the grammar has |
| C53 | refuted by a concrete grammar, and by two symbols each put before the other (`Asymmetric.v`); if no rule of three or more symbols has a symbol that derives the empty string only, numbers of symbols rank them as the comparison does, so that it is a strict partial order (`CrateOrder.v`) |
| C54 | the trees of the processed grammar, evaluated to syntax, are the user's trees: soundness, completeness and injectivity by induction on sizes, values by naturality (`CrateTrees.v`); then C15 and C16; with several trees, `CrateOrdered.v` shows that a user grammar without unit steps has its symbols in order, then C17 (`UserRoot.v`); with cycles, the uniqueness and exactness of trees hold for every run that ends (`Uniq.v`, `Trees.v`, `PropLemmas4.v`, `PropLemmas10.v`), and the run ends as for C52 (`CyclicTrees.v`) |
| C55 | every completed group costs its summands; the summands of a location are bounded by a potential that each skipped or completed item lowers, the groups by the number of (origin, symbol) pairs, the items of a set by origins times dotted rules (`Cost.v`); transferred to every forest by simulation (`CostTop.v`), with a formula for the constant; `ShortInput.v` turns it into a length below which the compact bocage's handles fit (C16, C19) |
| C56 | README.md's claim about LR(1) grammars. Refuted without hints: S ::= a S \| a, whose states are computed in closed form by induction on the input (`RightRec.v`), transferred to every forest by simulation, and shown LR(1) (`RightRecTop.v`). With the hints of `parse` the calls, the items and the bocages are linear, and without them the calls are at most quadratic, for reduced LR(1) grammars without empty rules and FOLLOW sets that hold nothing but what follows (`exact_contract`, `LRSpec.v`), which the reference crate gives (`LinearRef.v`). Proof: a rightmost derivation of an LR(1) grammar is found deterministically (`LRFacts.v`), so each item of a set has one origin for each symbol before the dot and the completions that survive lookahead belong to it (`LinearChart.v`); a count of completed groups against the items made (`LinearGroups.v`, `LinearRun.v`, `LinearTop.v`); and the transformations of `from_grammar` keep this (`LinearUser.v`, `LinearProps.v`). Empty rules cannot be allowed in general: refuted for A ::= y A N \| z B N, B ::= B t \| t, N ::= (nothing), read by `parse` with its hints, with an exact crate; states in closed form as above (`NullRec.v`, `NullRecTop.v`). Missing: the LR(1) grammars with empty rules that do not show this, useless symbols |
| C57 | the accessors read the tables, which `from_processed_grammars` fills from the rules; translations by the contract, rules by following each through binarisation and elimination and back (`PropLemmas11.v`) |
| C58 | refuted by the grammar of `C11_order_needed`, and by the user grammar S ::= a \| A, A ::= a with A declared first and the crate `numbered` of `ReferenceCrate.v`, whose start symbol is completed twice; with symbols in order the groups come in descending order, so the start symbol is completed once and the finished node has one alternative (`UniqRoot.v`); evaluation then starts below the marker (`RootTop.v`), which also gives C17 and C19 for whole parses; `UserRoot.v` says so of user grammars |
| C59 | the same for chains of numbers and operators, whose text does not determine the bracketing: the trees of a text are its readings, with their values (`ReadingProofs.v`); with at most two operators two readings differ at the top, so C17 gives the values; refuted with three operators |
| C60 | calls and answers as in `Session.v`; induction over the groups of a location (`ByHand.v`) |
| C61 | moves of a client as a program (`ReuseSpec.v`); a relation between forests and graphs that allows for nulled symbols restored by evaluations is kept by the calls and by every step of an evaluation (`Reuse.v`); the compact bocage's evaluation only appends (`ReuseCompact.v`); several parses by simulation from the free forest, whose nodes determine the values (`ReuseParse.v`); false of nodes that are no roots, by a witness |

## 4. What the model showed about the code

Each is a theorem or part of one, see the notes in `MANIFEST.json`.

1. `reset` keeps a lookahead hint, and prediction rows of later sets (C09).
2. `remap_symbols` orders the two sides of a unary rule by their old numbers instead of by
   their roles (C12); a group can then come twice (C11). The trees found are the right ones
   all the same (C15).
3. `find_gensyms` looks neither at unary rules nor at rules for the symbol itself (C24).
4. `has_trivial_derivation` is true if any symbol has a nulling rule (C33).
5. `events` uses the tables of dots 1 and 2 where 0 and 1 are meant, and may panic (C29).
6. `expected_terminals` leaves out the terminals a rule begins with, and contains
   nonterminals (C31).
7. `earleme` and the position given to `Forest::leaf` count the sets held, not the locations
   read (C34, C44).
8. The index in `Err(Parse)` may be that of the token before the offending one (C07).
9. Reading on after `end_earleme` said false may panic (C32).
10. `parse_terminal_list` never returns `Ok(false)` or `Err(Parse)` (C25).
11. `CartesianProduct::extend` replaces the state of the product it extends (C28).
12. Ambiguity below the root is flattened into the arguments of one product (C17); an
    evaluator whose `nulling` pushes nothing makes `evaluate` panic or lose values (C39).
13. The compact bocage orders alternatives differently, gives no value for the empty input,
    and grows with every evaluation (C19).
    If the start symbol is completed more than once, the compact bocage drops readings and
    the simple one passes the start-of-input marker to the evaluator (C58).
14. The nulling handle of an intermediate symbol cannot be used as a root (C35).
15. `Evaluate::leaf` and `nulling` are given internal symbols (C45); the evaluators of both
    example grammars take them for the user's. They read the number 123 as 33 (C46), and
    for the ambiguous grammar the expectation of `test_ambiguous_arithmetic` cannot be met
    (`C17_example_grammar_refuted`). With three operators the value of a sub-expression may be
    taken for an operator, and a value comes out that no reading has (`C59_refuted`).
16. Nonterminal names are accepted as input: the start symbol alone is a sentence of every
    grammar (C48).
17. The web page's "failed to finish the parse" is never shown (C47); tokens without a name
    in the table of `c_lexer` are dropped silently (C49); the first call of a page and calls
    with an unknown mode change the log of later answers (C50).
18. `from_grammar` panics on S ::= N N a, N ::= (nothing), if the crate drops rules of
    symbols that derive only the empty string; a terminal that stands in useless rules only
    makes `parse` panic; with A ::= A | a the completion loop never ends (C52). The comparison
    that `remap_symbols` sorts by is not a strict weak order (C53): from Rust 1.81 on,
    `sort_by` may panic on it. With S ::= p q x N, x nullable and N deriving nothing but the
    empty string, each of two symbols comes before the other.
19. Both `Bocage::new` assert that nulled symbols are below 2^20; `LEO = true` panics.
20. Without hints, as `parse_tokenizing` reads, S ::= a S | a costs 2 n^2 + 6 n + 1 calls of
    the forest and leaves quadratically many summands in either bocage, although the
    grammar is LR(1) (C56); with the hints of `parse` it is linear if there are no empty
    rules, and quadratic for some LR(1) grammars with a symbol that derives nothing else.

## 5. Trusted base

* Coq 8.16.1 kernel and standard library.
* `Print Assumptions` under every property theorem says "Closed under the global
  context": no axioms are used, none are added. Loading the standard library's tactics
  brings in the module `Coq.ssr.ssrunder`, whose sealed module type `Under_rel` a whole-environment
  check (`coqchk -o`) lists as seven parameters; no theorem here depends on them.
* The hand translation from Rust, with the conventions of section 1.
* For C51, C52 and C54 the contract `crate_contract` (a hypothesis of the theorems): it was
  written from what `/repo` uses of the `cfg` crate, not from its sources. It can be kept:
  `C51_contract_kept` shows a crate written in Coq that keeps it for every grammar, and
  `C51_reference_language_partial` needs no contract. C54 adds `crate_apart`: a symbol the
  crate leaves out because it derives only the empty string is not reported under the number
  of another symbol, and the start symbol is reported under its own. `C54_apart_kept` shows that this asks for nothing new when there is no
  such symbol, and that the crate written in Coq keeps it for every grammar.
* The behaviour of the crates not modelled, as far as stated by `processed`,
  `first_sets_cover`, `follow_sets_cover` and `BitMatrix.v`; for C45_refuted, C46, C59 and
  `C17_example_grammar_refuted` also the outcome of the `cfg` crate's transformations on the
  two example grammars (`prec`, `amath`), as far as the numbering of the symbols goes: the
  end of input first, as `remap_symbols` asks for, the others in their order.
* For C47–C50 also the parameters of `Wasm.v`: loading, lexing and what is logged depend on
  their arguments only.
