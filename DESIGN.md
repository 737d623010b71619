# A Rocq (Coq 8.16.1) model of shnewto/bnf

## 1. Trusted base

* Coq's kernel.  `vm_compute` is used only on closed examples and counterexamples.
* `Print Assumptions` stands under every property theorem in `Properties_*.v`.  The answer is "Closed under the global
  context" for all of them: no theorem uses an axiom, neither of our own nor of the standard library.  (A checker that lists
  everything loaded also sees seven parameters of `Coq.ssr.ssrunder.Under_rel`, which some standard library files load; no proof uses
  them.)
* The reading of `/repo` (Rust text) into Gallina.  Nothing was built or run; every model definition cites file and lines and says what
  it simplifies.  `Conformance.v` replays the repository's own recorded outputs (`tests/snapshots`, the doc examples) on the model, `UnitTests.v` its unit tests that are not random.
* The contracts of external code that the repository calls, listed in §3.
* The specifications.  They are small and do not mention the model's internals: `GrammarSpec.v`, `EarleySpec.v`, `GenSpec.v`, `TextSpec.v`,
  `NormalizeSpec.v`, `TreeSpec.v`, `TraceSpec.v`, `WalkSpec.v`, `JsonSpec.v`, `RenameSpec.v`, `EndsSpec.v`, `DeadEndSpec.v`, `IterateSpec.v`,
  `CoverSpec.v`, `ScanSpec.v`, `LinearSpec.v`, `AmbiguitySpec.v`, `ExpectSpec.v`, `DirectSpec.v`, `PreferSpec.v`, `RoundSpec.v`, `InfixSpec.v`, `CopiesSpec.v`, `TourSpec.v`, `StructSpec.v`, `FormatSpec.v`,
  `GenSameSpec.v`, `ExtendSpec.v`, `HashSpec.v`, `SizeSpec.v`, `CombineSpec.v`, `TracingSpec.v`, `TextTracingSpec.v`, `PrefixSpec.v`, `StepsSpec.v`, `MemorySpec.v`, `TreeSizeSpec.v`, `CodeSpec.v`, `SimplifySpec.v`, `PartsSpec.v`, `CountSpec.v`, `LeftSpec.v`, the first halves of `Order.v` and `Utf8.v`, and definitions at the head of some
  `Facts_*.v`.

Each property theorem is stated in a `Properties_*.v` file, closed by `exact`, followed by `Print Assumptions` and an example that meets
its hypotheses.

## 2. What is modelled, function by function

| File (theories/) | Rust source | content |
|---|---|---|
| `Base.v` | `str`, `char`, `HashMap`, `Vec` | strings as lists of code points, UTF-8 lengths, byte slicing with boundary check, hash maps as association lists, a result type with explicit `Panic` and `OutOfFuel` |
| `TextCost.v` | `src/parsers/*` | the text parsers with a count of the characters looked at; forgetting the counts gives `Text.v` |
| `TreeCost.v` | earley/mod.rs `parse_tree`, earley/traversal.rs `TraversalMatchIter` | building a tree with a count of the lookups; forgetting the counts gives `Earley.v` |
| `Utf8.v` | core `str` on bytes | the byte operations, and that they are those of `Base.v` (C68) |
| `Syntax.v` | term.rs, expression.rs, production.rs, grammar.rs | data, editing API, operators |
| `Order.v` | `derive(Ord)` of `Term`, `Expression` | the derived comparisons (C67) |
| `Macros.v` | `term!`, `expression!`, `production!`, `grammar!` | rewriting of token lists |
| `ParseGrammar.v` | parser/grammar.rs, parser/mod.rs, validation.rs, grammar.rs `validate` | flat table of productions, lookup, validation, parser construction |
| `Earley.v` | earley/*.rs, append_vec.rs, entry points | ranges, traversal tree, completion map, queue, main loop, tree extraction, iterator |
| `Generation.v` | grammar.rs `generate*`, `traverse`, `eval_terminal`, `terminates` | generation with an arbitrary strategy and callback, the guard, the debug assertion |
| `Strategies.v` | generation.rs | RandomWalk, DepthBounded, CoverageGuided, Weighted over an arbitrary source of random values |
| `Seeding.v` | generation.rs constructors, grammar.rs `generate`, `generate_callback`, `generate_seeded`, `generate_seeded_callback` | which bytes seed which generator, over any generators |
| `Machine.v` | input_range.rs, the functions of traversal.rs and earley/mod.rs that compute offsets, parsers/mod.rs name counter, grammar.rs tree formatting and generation depth | the same functions with `usize` of bounded size, with and without overflow checks |
| `Display.v`, `Decimals.v` | `Display` impls | terms, expressions, productions, grammars, numbers |
| `TreeFormat.v` | grammar.rs `ParseTree` Display and Mermaid | formatter state machine, label escaping |
| `Text.v` | parsers/*.rs, `FromStr` impls, `Grammar::parse_from` | the nom combinators used, both notations, fast and extended path, detection, normalization |
| `TextErrors.v` | the same, and error.rs | the same parsers with the content of nom's errors and the resulting message |
| `Debug.v`, `DebugTree.v` | `derive(Debug)`, earley/input_range.rs | Debug output of the data types, of errors, ranges and parse trees |
| `Iterate.v` | `*_iter`, `*_iter_mut`, `len`, `is_empty`, `get_expression`, `production_count` | accessors; a mutable loop with any body |
| `Json.v` | feature `serde`: derives on `Term`, `Expression`, `Production`, `Grammar` | the derived code over JSON values, and serde_json's text format |
| `Hashing.v` | `derive(Hash)` | the bytes fed to the hasher; tables of buckets |
| `Tracing.v` | tracing.rs, the `span!` and `event!` calls of a parse | the functions of `Earley.v` with what is reported; forgetting it gives `Earley.v` |
| `TextTracing.v` | the `span!` calls of parsers/mod.rs and of `GrammarParser::new` | the parsers of `Text.v` with what is reported; forgetting it gives `Text.v` |
| `Programs.v` | examples/*.rs, benches/divan.rs | the example programs with any sentence and source of random numbers; `take` on the iterator; specifications for C95 |

Proof files: `ParseGrammarProofs`, `EarleyInv`, `EarleyLoop`, `EarleyTree`, `EarleyRun`, `EarleyMain`, `EarleyTerm`, `EarleyExact`, `EarleyBounds`,
`EarleyOrder`, `EarleyWork`, `EarleySim` (parser); `GenProofs`, `StrategyProofs`, `StrategyExact`, `DepthLength`, `TraceProofs`, `WalkProofs` (generation); `TextTotal`,
`TextProofs`, `TextRead`, `TextComplete`, `TextMain`, `TextErrorsProofs`, `TextTail`, `TextLocate`, `TextCostProofs`, `TextCostLower`, `NormalizeProofs`, `NormalizeClosed` (text);
`DecimalProofs`, `MachineProofs`, `PrefixProofs`, `StepsProofs`, `TreeProofs`, `TreeInject`, `EditProofs`, `DocProofs`, `JsonProofs`, `DebugProofs`, `IterateProofs`, `CoverProofs`, `ScanProofs`, `LinearProofs`, `AmbiguityProofs`, `ExpectProofs`, `CriticalProofs`, `DirectProofs`, `CoverDraws`, `PreferProofs`, `RoundProofs`, `InfixProofs`, `InfixCount`, `CopiesProofs`, `TreeCostProofs`, `PostalProofs`, `PostalTrees`, `WorkNumbered`, `DeadEnds`, `ProgramProofs`, `StructProofs`, `FormatProofs`, `FormatMain`, `GenSameProofs`, `GenSameCases`, `ExtendProofs`, `HashProofs`, `SizeProofs`, `SizeDisplay`, `PropTestRange`, `CombineProofs`, `TourProofs`, `TracingProofs`, `TextTracingProofs`, `TextStory`, `SeedingProofs`, `MemoryProofs`, `TreeSizeProofs`, `CodeProofs`, `SimplifyProofs`, `SimplifyEnds`, `PartsProofs`, `CountProofs`, `LeftProofs`, `LeftTrees`, `LeftEnds`, `LeftCopies`; `Facts_*` (the last steps to the property theorems); `*Examples` (concrete data).

## 3. External contracts assumed (by definition, not by axiom)

* `hashbrown`: `get`/`insert`/`contains`/`entry` as finite maps (C102: a table of buckets is one); iteration order is an arbitrary permutation (only
  `NonterminalSets::undefined` iterates), and the theorems quantify over it.
* `rand`: `random_range(0..n)` returns some value `< n` and panics for `n = 0`.  A seeded generator is an
  arbitrary stream of draws.  A seed is 32 bytes that determine the generator.
* `nom` 8 complete parsers: `tag, char, take_till, take_until, satisfy, alt, many1, delimited, preceded, terminated, not, peek, opt,
  recognize, eof, all_consuming`, with the error each returns.
* `char::is_whitespace` is the Unicode property White_Space (25 code points, written out); `char::is_alphabetic` is an arbitrary predicate; where
  needed the theorems assume that layout and punctuation are not alphabetic (`alphabetic_ok`).
* `Vec::binary_search` on a sorted duplicate-free vector finds the element or its insertion point (C50 shows that the precondition holds).
* `serde` and `serde_json`: the derived code (externally tagged enum, structs as objects or arrays, unknown members skipped) and the JSON
  text format, as documented (`Json.v`).
* `str`'s `Debug` is an arbitrary function in C65; in C73 it escapes as documented, and which characters count as printable is arbitrary.
* Machine integers: offsets, ids, depths and the counter of generated names are unbounded `nat`.  `Machine.v` has
  the functions that compute with them once more with words of bounded size, and C108 shows that both agree (a Rust string has at most `isize::MAX`
  bytes); the wrap-around of the `u32` weights of `Weighted` is modelled directly.
* The debug assertion in generation compares alternatives; the model compares contents, not addresses.  CoverageGuided's keys are addresses
  and are modelled as such (C24).

## 4. Not modelled

* `Debug` output of types that are not public, the measuring code of benches/ (what the benchmarks compute is the subject of C86 and C93–C95).
* Memory and stack exhaustion.  How deep the recursions go is the subject of C74; elsewhere recursion too deep for the stack is modelled as success
  or as non-termination.
* Running time.  Loop iterations and stored traversals of the parser are counted (C48, C49, C64, C66, C110), and characters looked at by the text parsers (C69); hash and vector operations are not.

## 5. Properties and how they are proved

| Id | where | idea |
|---|---|---|
| C01-C12 | `Properties_Parsing`, `Properties_Inside` | each arena entry denotes a partial derivation over a slice of the input (ghost list in lock-step with the arena); closure of processed entries and FIFO fairness for completeness; finite enumeration for termination |
| C13-C15 | `Properties_Validation` | set characterisation for every iteration order |
| C16-C21, C26 | `Properties_Generation` | induction on fuel against an inductive expansion relation; fixpoint computation of the guard = inductive productivity; a strategy replaying a derivation |
| C22-C25 | `Properties_Strategies` | arbitrary draws; counting for C25; invariant over histories for C24 |
| C27-C36 | `Properties_Text` | relational concrete syntax against the parser model in both directions |
| C37-C39, C54 | `Properties_Normalize` | EBNF denotation against derivations of the lowered grammar; closed form |
| C40-C43 | `Properties_Trees` | formatter against recursive specification |
| C44-C46 | `Properties_Api` | direct |
| C47-C50 | `Properties_Termination` | live cycles; counting of spans; a family of grammars and inputs for the lower bound |
| C51-C53 | `Properties_Choices` | bijection between draws and candidates; bounded expansion trees |
| C55-C58 | `Properties_Docs` | the README's claims, some of them refuted |
| C59-C61 | `Properties_Formats` | reading displayed texts back |
| C62-C63 | `Properties_Traces` | dialogue relation, both directions |
| C64 | `Properties_Work` | ghost list = partial parses |
| C65 | `Properties_Errors` | error-carrying parsers with erasure to `Text.v`; positions of cuts |
| C66 | `Properties_Rename` | functional simulation between the runs of two grammars |
| C69 | `Properties_Cost` | amortised count: a failed attempt is paid for by what starts there (`weight` in `TextCostProofs.v`); below, every parser looks at what it takes (`TextCostLower.v`) |
| C71, C72 | `Properties_Json` | JSON text as a relation (RFC 8259), reader sound and complete for it; the derived code = relation between values and grammars |
| C70 | `Properties_Walks`, `Properties_Tours` | walks = runs on a source of numbers; counting residues; walks exclude each other; tours for CoverageGuided (`TourSpec.v`) |
| C73 | `Properties_Debug` | the texts form prefix-free codes; string literals as a relation |
| C74 | `Properties_Nesting` | the recursive functions with a limit on nested calls; simulation between limited and unlimited runs |
| C76 | `Properties_PropTests` | the generators and checks of the repository's property tests, over any source of random values (`PropTests.v`) |
| C77, C78 | `Properties_Ends` | when generation is sure to end; the tests of random generation, over any source (`EndsSpec.v`, `GenTests.v`) |
| C79 | `Properties_GenErrors` | the errors of generation, word for word, and their causes |
| C80 | `Properties_Iterate` | accessors and mutable loops; parsing, validation and generation after rewriting all terminals (`IterateSpec.v`) |
| C81 | `Properties_Cover` | several sentences from one `CoverageGuided` strategy; "fully explores" is refuted (`CoverSpec.v`) |
| C82 | `Properties_Scan` | the scan that chooses the parser; what the fast parser accepts (`ScanSpec.v`) |
| C83 | `Properties_Linear` | linear work when the alternatives begin with different characters; the DNA grammar of README.md (`LinearSpec.v`) |
| C84 | `Properties_Ambiguity` | quadratic work for unambiguous grammars without useless nonterminals and repeated alternatives; the conditions are needed (`AmbiguitySpec.v`) |
| C85 | `Properties_Expect` | average number of draws of a sentence, from an estimate per nonterminal; ending with probability one (`ExpectSpec.v`) |
| C86 | `Properties_Critical` | sentences of the benchmark calculator: end with probability one, no finite average number of draws |
| C87 | `Properties_Direct` | direct recursion below one self-reference per alternative: finite average; weights that achieve it; indirect recursion and the default weights (`DirectSpec.v`) |
| C88 | `Properties_CoverDraws` | average number of draws of CoverageGuided; with everything seen it is RandomWalk |
| C89 | `Properties_Prefer` | a traversal is created while the later one of its two parts is processed, in the order of the earlier ones (`PreferSpec.v`) |
| C90 | `Properties_Round` | parsing in rounds (`RoundSpec.v`); what a step of the queue creates follows everything created by earlier steps |
| C91 | `Properties_Round` | C90 and the exact round of each bracketing (`InfixSpec.v`) |
| C92 | `Properties_TreeCost` | counting copies of the functions that build a tree (`TreeCost.v`) |
| C93 | `Properties_Postal` | estimates per nonterminal (C85, C88), checked with binary numbers |
| C94 | `Properties_Postal` | ranks for nonterminals, and terms that consume, exclude cycles; a name of k letters has 2^(k-1) cuts and probability of the order of 2^-k |
| C95 | `Properties_Programs` | the grammars are unambiguous (C83), or their trees are ordered by shortcuts (C89, C90); the picture is the only drawing (C40) |
| C96–C98 | `Properties_Structures` | the table of productions, the window on the input, the tree of traversals, the queue and the completion map under arbitrary operations (`StructSpec.v`); the history of a parse |
| C99 | `Properties_UserFormats` | `parse_from` at any implementation of the public trait `Format` (`FormatSpec.v`: which formats can be told apart, and their texts) |
| C100 | `Properties_GenSame` | two grammars with the same first rules generate the same, under every strategy and random sequence (`GenSameSpec.v`) |
| C101 | `Properties_Extend` | the trees gained and lost by editing rules (`ExtendSpec.v`: trees node by node) |
| C102 | `Properties_Hash` | the bytes that `derive(Hash)` feeds to a hasher, and tables that find keys by hash (`HashSpec.v`) |
| C103 | `Properties_Size` | counts of productions, alternatives, terms and characters of grammars and extended grammars (`SizeSpec.v`); the length of `display_grammar` |
| C104 | `Properties_Combine` | constructions on grammars (`either`, `in_sequence`, `repeated`, `mirror`), names that do not interfere and the texts that can be generated (`CombineSpec.v`) |
| C105 | `Properties_Tracing` | the functions of Earley.v with a log (`Tracing.v`); a grammar of logs (`TracingSpec.v`); the history of a parse (C98) |
| C106 | `Properties_TextTracing` | the parsers of Text.v with a log (`TextTracing.v`); the log in terms of the grammar that is read (`TextTracingSpec.v`); the counting parsers of C69 for the length |
| C107 | `Properties_Seeding` | embedding of the state of one strategy in that of another |
| C108 | `Properties_Machine` | invariant: every range lies inside of the input, completed traversals start where the waiting ones ended; all names below the counter are in use |
| C109 | `Properties_Prefix` | the partial parses of C64; a tree with a hole around a predicted nonterminal; where the leaves of a tree are cut (`PrefixSpec.v`) |
| C110 | `Properties_Steps` | the step in which a traversal is made is given by where it comes from; the traversals looked at in one step have different ids; the log of C105 (`StepsSpec.v`) |
| C111 | `Properties_Memory` | the keys of the tables in terms of the traversals (invariant of C01 and C98); the ids in different vectors differ (`MemorySpec.v`) |
| C112 | `Properties_TreeSize` | the drawing and the edges of C40 and C41, counted (`TreeSizeSpec.v`) |
| C113 | `Properties_Code` | a simulation between the states of the parser on the input and on its encoding, positions mapped to the ends of code words (`CodeSpec.v`) |
| C114 | `Properties_Simplify` | trees node by node (C101): cut children, a relation between trees with and without the nodes of the name, a function in both directions (`SimplifySpec.v`); whether the enumeration ends: live cycles moved between the two forms, C47 (`SimplifyEnds.v`) |
| C115 | `Properties_Parts` | trees with an open place; a name twice on a path of the tree (the subtree of height n+1, a label less at each step down); smaller trees first, so that no two pieces are both empty (`PartsSpec.v`) |
| C116 | `Properties_Count` | the counted trees as lists, how often each is in the list (C04's copies); a higher tree has a part inside a part with the same label and text, which can be taken out or repeated (C115; `CountSpec.v`) |
| C117 | `Properties_Left` | induction over the trees with the tree for what follows as an argument; the spine of a left-recursive tree as a list (`LeftSpec.v`, `LeftTrees.v`); a part with arbitrarily large trees is expanded in both (C47; `LeftEnds.v`); the number of times the alternative of each node is listed is kept (C04's copies; `LeftCopies.v`) |
| C75 | `Properties_Fixtures` | the language of the fixture grammar as inductive definitions; each is a closed interpretation of its nonterminals |
| C67, C68 | `Properties_Order`, `Properties_Bytes` | base-64 digits of code points |

Every property has status "proved": where the natural claim is false, the property says exactly when it holds and the counterexample is a theorem
named `..._refuted`.

## 6. Findings

* Rejecting an input can take exponentially many steps, also for grammars that are not cyclic (C49).
* On a grammar in which a nonterminal derives itself, the iterator can return all parses and then not return from the next call (C47).
* `validate` and `build_parser` disagree on productions without alternatives (C15).
* `( )` and `[ ]` generate names `__anonN` that avoid defined names only: a reference to an undefined `<__anon0>` is captured (C38).
* ABNF text read by the crate does not always survive formatting (C31); layout directly after an opening bracket is rejected (C32).
* Weights that add up to 2^32 or more panic or bias the choice (C22, C25); DepthBounded never returns None, although the comment on `choose` names it as an example (C22); DepthBounded does not bound generation when a nonterminal has no
  terminal-only alternative (C23); CoverageGuided can confuse productions of grammars that reuse an address (C24).
* The guard of generation accepts grammars on which a sentence cannot be generated, or not with probability one (C20, C58), and
  generation never uses a second production of the same nonterminal (C26, C57).
* README: undefined nonterminals are not printed in angle brackets, `;` starts a comment rather than ending a production (C55, C56).
* Mermaid output panics or loses information in corner cases (C43, C60).
* An error inside `( )` is reported at the opening parenthesis, inside `[ ]` at the inner place (C65).
* Nested calls grow with the input: one round per open bracket of a grammar text, one per level of a parse tree, which can be as many as the input has
  characters already for a right-recursive list (C74).  A long enough text or input overflows the stack.
* The BNF grammar for BNF in tests/fixtures does not generate its own display, because its <EOL> contains a line break (C75).
* `ParsableInput` in tests/parse_input.rs cuts sentences longer than 50 bytes, and then asserts that they have a parse; for a^26 b^26 they do not (C76).
* CoverageGuided does not lead to unseen alternatives below a production whose own alternatives are all seen (C81).
* The scan for extended syntax looks into comments and names, and the fast parser rejects a single production; neither is observable (C34, C82).
* A nonterminal that generates nothing can make rejection exponential even when there is no parse tree at all (C84).
* An alternative listed twice can make the parser exponential on inputs with one parse tree (C83).
* The iterator never frees anything: memory is proportional to the work done (C111).
* The Display text of the parse tree of a right-recursive list of n items has about 4n^2 characters (C112).
* Parsing with README's grammar for DNA takes work that grows with the square of the length, although every sequence has one tree (C83).
* Ambiguous infix expressions come bracketed to the left first, whatever the operators: there is no precedence (C91). An expression with k operators has as many trees as there are ways to bracket it (the k-th Catalan number): at least twice as many with each further operator.
* Building a single parse tree can take exponentially many steps, when nodes without input repeat (C92).
* The benchmarks measure quantities without a finite mean: the length of random sentences of the calculator (C86), the number of parse trees of
  random postal addresses (C94).  The strategy benchmark with weights 100 and 1 takes 900 times the random numbers of the others on average (C93).
* `CoverageGuided::new` and `Weighted::new` always have the seed 0, `DepthBounded::new` and `RandomWalk::default` a fresh one (C107).  The benchmarks of
  the strategies make the strategy anew from the same seed in every iteration, so all iterations generate the same sentence.
* Two tests of `Weighted` assert what only holds for likely random draws (C78).

## 7. Wrong programs

`seeded/LOG.jsonl` records edits of model definitions made in a scratch copy: the edit, the claim it breaks, the theorems whose proofs then fail and
what was tightened where nothing failed.
