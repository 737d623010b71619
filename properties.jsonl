{"id": "C01", "title": "Parse soundness", "statement": "Every ParseTree yielded by parse_input / parse_input_starting_with is a derivation tree of the grammar: its root is labelled with the starting term, every node is an instance of one alternative of one production of the grammar with the children in order, and concatenating the terminal leaves gives exactly the whole input.", "quantifier": "all grammars, all starting terms, all input strings, every tree returned by any number of next() calls", "why_tests_cant": "Infinitely many grammars and inputs; ambiguous, nullable and left-recursive grammars produce unboundedly deep trees.", "anchors": ["src/earley/mod.rs:earley", "src/earley/mod.rs:parse_tree", "src/earley/mod.rs:ParseTreeIter", "src/earley/traversal.rs:TraversalTree"]}
{"id": "C02", "title": "Parse completeness", "statement": "Every derivation tree of the input from the starting term is returned by some next() call after finitely many calls, even when the set of derivations is infinite (the enumeration is fair).", "quantifier": "all grammars, starting terms, inputs and derivation trees", "why_tests_cant": "Requires that no derivation is ever starved or lost by de-duplication, for unbounded trees and infinite enumerations.", "anchors": ["src/earley/mod.rs:earley", "src/earley/mod.rs:CompletionMap", "src/earley/mod.rs:TraversalQueue", "src/earley/traversal.rs:match_term", "src/earley/traversal.rs:_predict"]}
{"id": "C03", "title": "Recognition is exact", "statement": "If the input belongs to the language of the starting term then the first next() returns Some; if the first next() returns None then the input is not in the language.", "quantifier": "all grammars, starting terms and inputs", "why_tests_cant": "Language membership is a statement over all derivations.", "anchors": ["src/earley/mod.rs:ParseTreeIter::next", "src/parser/mod.rs:parse_input"]}
{"id": "C04", "title": "Each derivation is yielded once", "statement": "If no alternative is listed twice for the same left hand side, the iterator never returns two equal parse trees. In general a tree is returned exactly as often as its alternatives are listed in the grammar, multiplied over its nodes (never more often, and that often after finitely many calls).", "quantifier": "all grammars (for the first claim those without repeated (lhs, alternative) pairs), all inputs, all trees, any number of next() calls", "why_tests_cant": "Needs an injectivity argument between traversal states and derivations for all histories.", "anchors": ["src/earley/traversal.rs:TraversalTree", "src/earley/mod.rs:TraversalQueue"]}
{"id": "C05", "title": "Enumeration ends on non-cyclic grammars", "statement": "If the grammar is not cyclic (no nonterminal derives itself through nullable context) then exhausting the iterator returns after finitely many steps. On a cyclic grammar a single next() may run forever (counterexample).", "quantifier": "all non-cyclic grammars, all inputs", "why_tests_cant": "Termination over unbounded inputs; tests can only observe time-outs.", "anchors": ["src/earley/mod.rs:earley", "src/earley/mod.rs:TraversalQueue"]}
{"id": "C06", "title": "Iterator exhaustion is final and exhaustive", "statement": "Once next() returns None it returns None for ever, and the trees returned before are exactly the derivation trees of the input.", "quantifier": "all grammars, inputs, histories of next() calls", "why_tests_cant": "Quantifies over all call histories and all derivations.", "anchors": ["src/earley/mod.rs:ParseTreeIter::next"]}
{"id": "C07", "title": "Parsing input never panics", "statement": "For any grammar with at least one production and any input, no next() call panics: every internal id lookup succeeds, no index underflows, every matched terminal has an unmatched term to consume. The deprecated Grammar::parse_input panics exactly when the grammar has no productions. The same holds for every state inside a call: whatever traversal is next in the queue can be worked on, also in a call that does not return.", "quantifier": "all grammars, inputs, call histories", "why_tests_cant": "Panic freedom is a universally quantified safety property of every reachable parser state.", "anchors": ["src/earley/traversal.rs:get", "src/earley/traversal.rs:match_term", "src/earley/input_range.rs:advance_by", "src/parser/grammar.rs:get_production_by_id", "src/parser/mod.rs:new_unchecked", "src/append_vec.rs:push_with_id"]}
{"id": "C08", "title": "Order of productions is irrelevant to the result", "statement": "For an explicit starting term, reordering the productions of the grammar does not change the set of trees returned; when both iterations end, the two result lists are permutations of one another.", "quantifier": "all grammars, all permutations of productions, all inputs", "why_tests_cant": "Factorially many permutations, unbounded grammars.", "anchors": ["src/parser/grammar.rs:new", "src/parser/mod.rs:parse_input_starting_with"]}
{"id": "C09", "title": "Deprecated and new parse entry points agree", "statement": "Whenever build_parser succeeds, GrammarParser::parse_input and the deprecated Grammar::parse_input return the same sequence of trees; parse_input is parse_input_starting_with the first production's left hand side.", "quantifier": "all grammars that validate, all inputs, all call counts", "why_tests_cant": "Equality of two lazy sequences for all inputs.", "anchors": ["src/grammar.rs:parse_input", "src/parser/mod.rs:parse_input", "src/earley/mod.rs:parse_with_parser_rc", "src/parser/grammar.rs:new_unchecked"]}
{"id": "C10", "title": "Parser reuse and interleaving", "statement": "Several iterators obtained from one parser (for the same or different inputs) do not influence each other: under every interleaving of next() calls each iterator returns the same sequence it returns when run alone.", "quantifier": "all schedules of next() calls over any number of iterators", "why_tests_cant": "Exponentially many interleavings.", "anchors": ["src/parser/mod.rs:GrammarParser", "src/earley/mod.rs:ParseTreeIter"]}
{"id": "C11", "title": "Unknown start term gives no parse", "statement": "parse_input_starting_with a term that is no production's left hand side returns None on the first next(), for every input.", "quantifier": "all grammars, inputs, undefined terms", "why_tests_cant": "All inputs and terms.", "anchors": ["src/earley/mod.rs:push_back_starting", "src/parser/grammar.rs:get_productions_by_lhs"]}
{"id": "C12", "title": "Matched ranges stay inside the input on character boundaries", "statement": "Every range consumed while parsing starts and ends on a UTF-8 character boundary inside the input, so byte offsets never split a character and the clamping in range advancement never takes effect.", "quantifier": "all grammars with arbitrary Unicode terminals, all Unicode inputs, all reachable parser states, also those inside a next() call that does not return", "why_tests_cant": "Depends on all combinations of multi-byte terminals and inputs.", "anchors": ["src/earley/input_range.rs:next", "src/earley/input_range.rs:advance_by", "src/earley/input_range.rs:is_complete"]}
{"id": "C13", "title": "validate() is exact", "statement": "Grammar::validate returns Ok exactly when the grammar has at least one production and each nonterminal used on a right hand side is the left hand side of some production; otherwise it returns a ValidationError which, if the grammar is non-empty, names an undefined nonterminal.", "quantifier": "all grammars, all hash iteration orders", "why_tests_cant": "All grammars and all hash-set iteration orders.", "anchors": ["src/grammar.rs:validate", "src/validation.rs:NonterminalSets"]}
{"id": "C14", "title": "build_parser() is exact", "statement": "build_parser returns Ok exactly when the grammar has at least one production and each nonterminal used on a right hand side has at least one alternative; otherwise ValidationError naming such a nonterminal (or the empty-grammar message).", "quantifier": "all grammars, all hash iteration orders", "why_tests_cant": "All grammars.", "anchors": ["src/parser/grammar.rs:new", "src/parser/mod.rs:new"]}
{"id": "C15", "title": "validate() and build_parser() agree", "statement": "validate() succeeds if and only if build_parser() succeeds (documented: the parser validates at construction). True when every production has an alternative; false for a production with an empty right hand side (counterexample).", "quantifier": "all grammars", "why_tests_cant": "All grammars; the exception is a corner case no test covers.", "anchors": ["src/grammar.rs:validate", "src/parser/grammar.rs:new"]}
{"id": "C16", "title": "Generated sentences belong to the grammar", "statement": "If generation returns Ok(s), s is the terminal yield of a finite expansion of the first production's left hand side in which each nonterminal is expanded by an alternative of its first production, and an undefined nonterminal contributes its bare name.", "quantifier": "all grammars, callbacks, strategies that pick one of the offered alternatives, all random streams", "why_tests_cant": "All random choices and unbounded expansions.", "anchors": ["src/grammar.rs:traverse_with_strategy", "src/grammar.rs:eval_terminal_with_strategy", "src/grammar.rs:generate_seeded_callback_with_strategy"]}
{"id": "C17", "title": "Generate then parse", "statement": "If build_parser succeeds and generation returns Ok(s), then parsing s with that parser returns at least one tree.", "quantifier": "all validated grammars, strategies, callbacks, random streams", "why_tests_cant": "Couples two unbounded processes over all random streams.", "anchors": ["src/grammar.rs:generate_seeded_callback_with_strategy", "src/parser/mod.rs:parse_input"]}
{"id": "C18", "title": "Callback approves every expansion", "statement": "In the expansion behind a generated sentence the callback returned true for every expanded nonterminal together with the text generated for it, including the starting rule and the final sentence.", "quantifier": "all grammars, callbacks, strategies, random streams", "why_tests_cant": "All callbacks and random streams.", "anchors": ["src/grammar.rs:traverse_with_strategy"]}
{"id": "C19", "title": "The generation guard decides productivity", "statement": "Generation reports that the first rule does not lead to a terminal state exactly when the grammar has productions and the first production's left hand side cannot derive any finite terminal string; the check itself always ends.", "quantifier": "all grammars", "why_tests_cant": "Least-fixed-point property over all grammars and rule orders.", "anchors": ["src/grammar.rs:terminates", "src/production.rs:has_terminating_expression", "src/expression.rs:terminates"]}
{"id": "C20", "title": "The guard makes generation safe", "statement": "If the guard accepts the grammar, some sequence of choices makes generation return a sentence. True when the first left hand side is a nonterminal (as in every grammar read from text), no two productions share a left hand side and no production consists of a single empty alternative; false otherwise (counterexamples: every run of an accepted grammar recurses for ever; every run ends with an error).", "quantifier": "all grammars with distinct left hand sides", "why_tests_cant": "Existence over all choice sequences; the failure is non-termination.", "anchors": ["src/grammar.rs:terminates", "src/grammar.rs:traverse_with_strategy"]}
{"id": "C21", "title": "Generation is reproducible", "statement": "The result of generation is a function of the grammar, callback and strategy state (seed): repeating it gives the same result, and giving it more time never changes a result already obtained.", "quantifier": "all grammars, callbacks, strategies and seeds", "why_tests_cant": "All seeds.", "anchors": ["src/grammar.rs:generate_seeded", "src/generation.rs:from_seed"]}
{"id": "C22", "title": "Built-in strategies always pick an offered alternative", "statement": "For a production with at least one alternative, RandomWalk, DepthBounded, CoverageGuided and Weighted return one of the production's alternatives and never panic (Weighted: provided the weights' sum fits in u32). So DepthBounded returns an alternative with nonterminals when there is no terminal-only one, where the comment on GenerationStrategy::choose expects None (refuted).", "quantifier": "all productions, depths, strategy states and random streams", "why_tests_cant": "All random streams and internal buffer states.", "anchors": ["src/generation.rs:RandomWalk", "src/generation.rs:DepthBounded", "src/generation.rs:CoverageGuided", "src/generation.rs:Weighted"]}
{"id": "C23", "title": "DepthBounded bounds generation", "statement": "At or above max_depth DepthBounded picks only all-terminal alternatives when the production has one; if every production has one, generation ends for every random stream and the size of the sentence is bounded. Without such alternatives the documented guarantee of termination fails (counterexample).", "quantifier": "all grammars, max depths, random streams", "why_tests_cant": "All random streams; negative part is non-termination.", "anchors": ["src/generation.rs:DepthBounded"]}
{"id": "C24", "title": "CoverageGuided covers every alternative", "statement": "Among the choices CoverageGuided makes for a given production, no alternative is repeated until every alternative has been chosen once, whatever choices for other productions are interleaved; after n choices all n alternatives have been chosen.", "quantifier": "all interleaved sequences of choose() calls, all random streams", "why_tests_cant": "All histories.", "anchors": ["src/generation.rs:CoverageGuided"]}
{"id": "C25", "title": "Weighted chooses in proportion to weights", "statement": "With total weight positive and below 2^32, alternative i is selected by exactly weight(i) of the `total` equally likely draws, so zero-weight alternatives are never selected; with total zero the choice is uniform. If the u32 sum overflows the claim is false (counterexample).", "quantifier": "all productions, weights, draws", "why_tests_cant": "All draws in a range of size up to 2^32 and all weight vectors.", "anchors": ["src/generation.rs:weighted_random_index", "src/generation.rs:fill_weights"]}
{"id": "C26", "title": "Every sentence of the grammar can be generated", "statement": "For a grammar with distinct left hand sides and no production consisting of a single empty alternative, whose first left hand side is a nonterminal, each derivable sentence of the first rule is the result of generation for some choice strategy. With two productions for one nonterminal the alternatives of the later ones are never generated (counterexample).", "quantifier": "all grammars, all derivations", "why_tests_cant": "Existence over all strategies, for all derivations.", "anchors": ["src/grammar.rs:traverse_with_strategy"]}
{"id": "C27", "title": "Term text round trip", "statement": "Parsing the Display form of a term returns the term, exactly when it is a nonterminal without '>' or a terminal that does not contain both quote characters.", "quantifier": "all terms over all Unicode strings", "why_tests_cant": "All strings.", "anchors": ["src/term.rs:Display", "src/term.rs:FromStr", "src/parsers/mod.rs:term"]}
{"id": "C28", "title": "Expression text round trip", "statement": "Parsing the Display form of an expression returns the expression, exactly when it is non-empty and all its terms round trip.", "quantifier": "all expressions", "why_tests_cant": "All strings and lengths.", "anchors": ["src/expression.rs:Display", "src/expression.rs:FromStr", "src/parsers/mod.rs:expression"]}
{"id": "C29", "title": "Production text round trip", "statement": "Parsing the Display form of a production returns the production, exactly when its left hand side is a nonterminal without '>', it has at least one alternative, and all alternatives round trip.", "quantifier": "all productions", "why_tests_cant": "All strings and lengths.", "anchors": ["src/production.rs:Display", "src/production.rs:FromStr", "src/parsers/mod.rs:production"]}
{"id": "C30", "title": "Grammar text round trip", "statement": "Parsing the Display form of a grammar returns the grammar, exactly when it has at least one production and all productions round trip.", "quantifier": "all grammars", "why_tests_cant": "All strings and lengths; two internal parse paths.", "anchors": ["src/grammar.rs:Display", "src/grammar.rs:FromStr", "src/parsers/mod.rs:grammar_complete"]}
{"id": "C31", "title": "Every grammar read from BNF text survives formatting", "statement": "If a text is parsed successfully as BNF, formatting the resulting (normalized) grammar and parsing it again gives an equal grammar. For ABNF text the claim is false (counterexample with '>' in a rule name).", "quantifier": "all texts that parse", "why_tests_cant": "All texts, including extended syntax.", "anchors": ["src/grammar.rs:parse_from", "src/grammar.rs:FromStr", "src/parsers/mod.rs:normalize_parsed_grammar"]}
{"id": "C32", "title": "Grammar text means what the BNF notation says", "statement": "Any text laid out according to the BNF notation - rules, alternatives separated by '|', terms in either quote style, groups and optionals, with arbitrary whitespace and ';' comments between tokens - parses to the grammar it denotes; layout and comments do not influence the result. Whitespace is exactly the 25 characters with the Unicode property White_Space. Exception: no layout is accepted directly after '(' or '['.", "quantifier": "all grammars with nested groups/optionals, all layouts, all comments", "why_tests_cant": "All layouts and nestings.", "anchors": ["src/parsers/mod.rs:whitespace_plus_comments", "src/parsers/mod.rs:parsed_production", "src/parsers/mod.rs:parsed_term"]}
{"id": "C33", "title": "Grammar parsing is total", "statement": "Parsing any text as a term, expression, production or grammar ends without panic and returns either a value or a ParseError; on success the whole text has been consumed.", "quantifier": "all texts, both formats", "why_tests_cant": "All texts.", "anchors": ["src/parsers/mod.rs:grammar_complete", "src/parsers/nom_xt.rs:xt_list_with_separator", "src/error.rs:Error"]}
{"id": "C34", "title": "Fast path and extended path agree", "statement": "When the plain-grammar fast path accepts a text, the extended-syntax path accepts it too and gives the same grammar, so the path selection is not observable.", "quantifier": "all texts, both formats", "why_tests_cant": "Equivalence of two parsers on all texts.", "anchors": ["src/parsers/mod.rs:plain_grammar", "src/parsers/mod.rs:parsed_grammar_complete", "src/parsers/mod.rs:grammar_has_extended_syntax"]}
{"id": "C35", "title": "Format auto-detection", "statement": "str::parse reads a text as BNF exactly when its first character after whitespace and comments is '<', and as ABNF otherwise; a text accepted in one of the notations is accepted by str::parse with the same result; the Display form of a grammar whose first left hand side is a nonterminal is always read as BNF.", "quantifier": "all texts", "why_tests_cant": "All texts.", "anchors": ["src/parsers/mod.rs:is_format_standard_bnf", "src/grammar.rs:FromStr"]}
{"id": "C36", "title": "Parsed grammars are well formed", "statement": "A grammar obtained from text has at least one production, each left hand side is a nonterminal, each production has an alternative, each alternative has a term, and (BNF) every term can be written back.", "quantifier": "all texts", "why_tests_cant": "All texts.", "anchors": ["src/parsers/mod.rs:grammar_complete", "src/parsers/mod.rs:normalize_parsed_grammar"]}
{"id": "C37", "title": "Groups and optionals keep their meaning", "statement": "Lowering '( )' and '[ ]' to fresh nonterminals does not change the language: for every user-defined nonterminal the normalized grammar derives exactly the strings described by the source with alternatives, groups and optionals (zero or one), provided that the source does not refer to an undefined reserved name __anonN; in any case it derives all of them.", "quantifier": "all source grammars with nested groups and optionals whose references are defined or are not reserved __anon names, all strings", "why_tests_cant": "Language equality over unbounded nesting.", "anchors": ["src/parsers/mod.rs:normalize_parsed_grammar", "src/parsers/mod.rs:lower_term", "src/parsers/mod.rs:lower_expression"]}
{"id": "C38", "title": "Generated names are fresh", "statement": "Names generated for groups and optionals are pairwise distinct and distinct from every left hand side in the source. They are not distinct from names that are only referenced: an undefined <__anon0> is silently captured (counterexample).", "quantifier": "all source grammars", "why_tests_cant": "All grammars, any number of groups and any user names.", "anchors": ["src/parsers/mod.rs:fresh_anon_name"]}
{"id": "C39", "title": "Normalization keeps the user's rules", "statement": "The user's productions come first, in source order, with unchanged left hand sides and the same number of alternatives, followed by one production per group/optional; a grammar without groups is unchanged. In particular the starting rule is the first rule of the source.", "quantifier": "all source grammars", "why_tests_cant": "All grammars.", "anchors": ["src/parsers/mod.rs:normalize_parsed_grammar"]}
{"id": "C40", "title": "Parse tree Display is the canonical tree drawing", "statement": "Display of a parse tree prints one line per node in pre-order, each prefixed by the column glyphs determined by which ancestors are last children, for every tree shape including empty right hand sides.", "quantifier": "all parse trees", "why_tests_cant": "All tree shapes; the implementation uses a mutable column set.", "anchors": ["src/grammar.rs:ParseTree::fmt", "src/grammar.rs:fmt_node_prefix"]}
{"id": "C41", "title": "Mermaid output is the tree", "statement": "The Mermaid text has a header followed by exactly one edge line per non-root node; node numbers are assigned in pre-order, so each non-root node is the target of exactly one line, whose source is its parent. Numbers are written in decimal without superfluous zeros.", "quantifier": "all parse trees with nonterminal labels", "why_tests_cant": "All tree shapes.", "anchors": ["src/grammar.rs:MermaidParseTree::fmt"]}
{"id": "C42", "title": "Mermaid label escaping is safe and reversible", "statement": "escape_mermaid_label never emits a raw special character other than the '#' and ';' of entity codes, leaves other characters unchanged, and decoding the entity codes gives back the original string; distinct labels stay distinct.", "quantifier": "all strings", "why_tests_cant": "All strings.", "anchors": ["src/grammar.rs:escape_mermaid_label"]}
{"id": "C43", "title": "Formatting a parse result as Mermaid never panics", "statement": "For trees returned by the parser, mermaid().to_string() does not panic. True when every left hand side in the grammar is a nonterminal (in particular for grammars read from text); false for a grammar built with a terminal left hand side (counterexample).", "quantifier": "all grammars, inputs and yielded trees", "why_tests_cant": "All trees.", "anchors": ["src/grammar.rs:MermaidParseTree::fmt"]}
{"id": "C44", "title": "Editing operations", "statement": "add_* appends one element; remove_term / remove_from_rhs remove exactly the first equal element, keep the order of the rest and return it; remove_production removes exactly one equal production and keeps the multiset of the rest (it may change the order and thus the starting rule); removing something absent changes nothing and returns None.", "quantifier": "all sequences, all elements", "why_tests_cant": "All lists and positions.", "anchors": ["src/expression.rs:remove_term", "src/production.rs:remove_from_rhs", "src/grammar.rs:remove_production"]}
{"id": "C45", "title": "Operators on terms and expressions", "statement": "expression + expression concatenates, expression + term appends, term + term makes the pair, and term + expression appends the term at the end; borrowed and owned variants agree.", "quantifier": "all terms and expressions", "why_tests_cant": "All values.", "anchors": ["src/term.rs:Add", "src/expression.rs:Add"]}
{"id": "C46", "title": "Macros build the grammar that is written", "statement": "expression!, production! and grammar! build the value that the same text denotes. True for expression! and for at most two alternatives / productions in the documented shapes; false in general: production! and grammar! permute three or more alternatives, grammar! reverses alternatives of all but the last production and moves the starting rule (counterexamples). Each macro accepts exactly the token sequences that write such a value, and grammar!{} is the empty grammar.", "quantifier": "all token sequences accepted by the macros", "why_tests_cant": "All token sequences.", "anchors": ["src/expression.rs:expression!", "src/production.rs:production!", "src/grammar.rs:grammar!"]}
{"id": "C47", "title": "Exactly when the enumeration of parses ends", "statement": "The iterator reaches None after finitely many trees if and only if no self-deriving nonterminal is both expanded at a position of the input that top-down left-to-right derivation can reach and able to match there. If a self-deriving nonterminal occurs in a parse of the whole input, every call of next returns a tree, for ever. Otherwise (a live cycle outside all parses) all parses are returned and the following call of next never returns.", "quantifier": "all grammars (cyclic ones included), starting terms, inputs and run lengths", "why_tests_cant": "Non-termination cannot be observed by a test, and the condition quantifies over all derivations.", "anchors": ["src/earley/mod.rs:earley", "src/earley/mod.rs:ParseTreeIter::next"]}
{"id": "C48", "title": "Quadratic work for uniquely matching grammars", "statement": "If no string is matched in two ways by the beginning of an alternative, then at any time the number of traversals is at most (number of positions in alternatives) * (n+1)^2 for an input of n bytes, and each call of next returns within that many iterations of the loop plus one.", "quantifier": "all such grammars, all starting terms, inputs and run lengths", "why_tests_cant": "A resource bound over all inputs.", "anchors": ["src/earley/mod.rs:earley", "src/earley/traversal.rs:TraversalTree"]}
{"id": "C49", "title": "Polynomial work in general", "statement": "Claim: for every non-cyclic grammar the number of loop iterations is polynomial in the input length, at least when the input is rejected. False: there is a non-cyclic grammar without duplicate alternatives for which rejecting an input of n+1 characters takes more than 2^n iterations and 2^n stored traversals, because traversals are kept per derivation and not per span.", "quantifier": "all input lengths n", "why_tests_cant": "A growth rate is not observable on finitely many inputs.", "anchors": ["src/earley/mod.rs:earley", "src/earley/traversal.rs:match_term"]}
{"id": "C50", "title": "Completion vectors stay sorted", "statement": "Every vector stored in the completion map is strictly ascending in every reachable state, so the precondition of binary_search in sorted_vec_insert always holds; on sorted vectors insertion through any binary search that keeps the documented contract inserts the id at the unique place and keeps the vector strictly ascending.", "quantifier": "all grammars, inputs, run lengths, keys, states in and between the calls of next(); all sorted vectors and ids", "why_tests_cant": "Internal invariant of all reachable states.", "anchors": ["src/earley/mod.rs:sorted_vec_insert", "src/earley/mod.rs:CompletionMap"]}
{"id": "C51", "title": "Uniform choices of the strategies", "statement": "Each choice of RandomWalk, DepthBounded and CoverageGuided consumes one draw from 0..k, where k is the number of candidates, and every candidate is selected by exactly one value of the draw. Candidates are: all alternatives (RandomWalk, and DepthBounded below its limit); the alternatives without nonterminals, or all if there is none (DepthBounded from its limit on); the alternatives not used before, or all if all were used (CoverageGuided, which then records the one selected).", "quantifier": "all random streams, productions with at least one alternative, depths, limits and coverage sets", "why_tests_cant": "Uniformity is a statement about all possible draws; tests sample a few seeds.", "anchors": ["src/generation.rs:RandomWalk", "src/generation.rs:fill_eligible_and_choose_index", "src/generation.rs:fill_uncovered_and_choose_index"]}
{"id": "C52", "title": "Exact language of DepthBounded", "statement": "If the first left hand side is a nonterminal, every production has an alternative without nonterminals and none consists of a single empty alternative, DepthBounded with limit m generates exactly the texts that have an expansion tree with at most m+1 levels of nonterminals; with a callback (also a stateful one) every generated text has such a tree all of whose nodes were accepted. If moreover every alternative has at most c characters in its terminals and at most k nonterminals, and undefined names have at most c characters, no text is longer than c*(1+k+...+k^m), whatever the callback; for all c, k and m some grammar and random stream reach this length.", "quantifier": "all such grammars, limits, texts, random streams and callbacks", "why_tests_cant": "Both inclusions range over infinitely many grammars and random streams.", "anchors": ["src/generation.rs:DepthBounded", "src/grammar.rs:traverse_with_strategy"]}
{"id": "C53", "title": "Generation without errors", "statement": "If the first production's nonterminal derives a finite tree and every production has at least one alternative and not just a single empty one, then generation with RandomWalk, DepthBounded, CoverageGuided or Weighted never returns an error.", "quantifier": "all such grammars, random streams, callbacks and running times", "why_tests_cant": "Absence of an error over all random choices.", "anchors": ["src/grammar.rs:traverse_with_strategy", "src/grammar.rs:generate_seeded_callback_with_strategy"]}
{"id": "C54", "title": "Normalization in closed form", "statement": "The result of normalizing a grammar with groups and optionals is completely determined: the group or optional opened by the k-th bracket (in reading order) is named __anonI, where I is the k-th number whose name is not a left hand side of the source; the user's rules come first in their order; then the rules for the groups and optionals in the order of their closing brackets, with their alternatives in order; an optional has '' as last alternative, an empty group has only ''.", "quantifier": "all parsed grammars", "why_tests_cant": "Exact output for every nesting of brackets and every set of user-chosen names.", "anchors": ["src/parsers/mod.rs:normalize_parsed_grammar"]}
{"id": "C55", "title": "Undefined nonterminals in generation", "statement": "README: if the generator cannot find a production for a nonterminal it prints it as <identifier>. In fact it returns the bare name, for every strategy, callback and depth (the bracketed form is refuted); and when every alternative of the first rule needs an undefined nonterminal, an error is returned and nothing is printed (refuted).", "quantifier": "all grammars, strategies, callbacks, depths and undefined names", "why_tests_cant": "A statement over all strategies and callbacks; the repository's tests do not compare the printed name with the README.", "anchors": ["README.md:121-122", "src/grammar.rs:traverse_with_strategy"]}
{"id": "C56", "title": "End of a production and joining grammar texts", "statement": "README: the parser allows an optional ';' to indicate the end of a production. Two texts in one notation joined by a line break denote the productions of both in order; in BNF, ';' with any rest of the line may be inserted between them or added at the end. But ';' does not end a production: what follows on the same line is silently dropped (refuted), and in ABNF a ';' directly after a name becomes part of the name (refuted).", "quantifier": "all grammar texts in both notations, all comments", "why_tests_cant": "Quantifies over all pairs of grammar texts; the effects are silent (no error).", "anchors": ["README.md:25-26", "src/parsers/mod.rs:whitespace_plus_comments", "src/parsers/augmented.rs"]}
{"id": "C57", "title": "Distribution of alternatives over productions", "statement": "The parse trees returned depend only on the set of pairs (left hand side, alternative), and their multiplicities only on the multiset of these pairs; so splitting or merging productions of a nonterminal (also '::=|' / '=/') does not change parsing. Generation is different: it never uses a later production for the same nonterminal (refuted).", "quantifier": "all grammars, start terms and inputs; all strategies and callbacks", "why_tests_cant": "Compares all pairs of grammars on all inputs, including cyclic ones where the enumeration does not end.", "anchors": ["src/parser/grammar.rs:ParseGrammar::new", "src/earley/mod.rs", "src/grammar.rs:traverse_with_strategy"]}
{"id": "C58", "title": "Generation that passes the guard ends with probability one", "statement": "README: generate returns an error if it detects an infinite loop. False as a guarantee of termination: for <s> ::= <s> <s> <s> | 'a' the guard passes, yet for every n at most 5/8 of the 2^n sequences of n fair choices make generation with the default strategy return.", "quantifier": "all n, all choice sequences of length n", "why_tests_cant": "A bound on a probability over unboundedly long runs.", "anchors": ["README.md:124-125", "src/grammar.rs:terminates", "src/grammar.rs:traverse_with_strategy", "src/generation.rs:RandomWalk"]}
{"id": "C59", "title": "A displayed parse tree determines the tree", "statement": "Two parse trees whose labels and terminals contain no line break are equal if their Display texts are equal: nesting, order, terminals versus nonterminals and labels can all be read back. With line breaks in labels this is false.", "quantifier": "all parse trees without line breaks in labels", "why_tests_cant": "Injectivity over all pairs of trees.", "anchors": ["src/grammar.rs:76-160", "src/grammar.rs:185-200", "src/term.rs:87-100"]}
{"id": "C60", "title": "The Mermaid text determines the labelled shape", "statement": "Two parse trees whose inner nodes are nonterminals, the first with at least two nodes, have the same shape and the same label at each place if their Mermaid texts are equal. False for a tree of one node, whose label is not written; and a terminal is not told from a nonterminal without children.", "quantifier": "all parse trees with nonterminal roots", "why_tests_cant": "Injectivity over all pairs of trees, with arbitrary labels including quotes and brackets.", "anchors": ["src/grammar.rs:221-264", "src/grammar.rs:266-275", "src/grammar.rs:escape_mermaid_label"]}
{"id": "C61", "title": "Displayed grammars determine the grammar", "statement": "Terms are equal if they display equally. Expressions, productions and grammars that BNF can write (names without >, no terminal with both kinds of quotes, no empty alternatives) are equal if they display equally. Without this condition it is false.", "quantifier": "all terms; all pairs of writable expressions, productions, grammars", "why_tests_cant": "Injectivity over all pairs of grammars.", "anchors": ["src/term.rs:87-100", "src/expression.rs:129-140", "src/production.rs:102-120", "src/grammar.rs:775-786"]}
{"id": "C62", "title": "The generator's dialogue with strategy and callback", "statement": "A run of the generator asks the strategy once per attempt, with the first production of the nonterminal and its nesting depth (0 at the start, one more for each level), expands the chosen terms from left to right, then asks the callback once with the nonterminal and its text; a refusal repeats the attempt at the same depth; the first error ends the run. Every such sequence of questions and answers is realised by some strategy and callback.", "quantifier": "all grammars, strategies, callbacks, states, running times; all dialogues", "why_tests_cant": "The order and arguments of all calls over all strategies and callbacks with private state.", "anchors": ["src/grammar.rs:492-560", "src/grammar.rs:644-672", "src/generation.rs:GenerationStrategy"]}
{"id": "C63", "title": "The debug assertion on chosen expressions", "statement": "With debug assertions a run that would end gives the same result if all choices made in it are alternatives of the production they were made from, and panics otherwise; so with them only alternatives are ever used, and for the strategies of the library there is no difference.", "quantifier": "all grammars, strategies, callbacks, states, running times", "why_tests_cant": "Equality of two builds over all strategies and runs.", "anchors": ["src/grammar.rs:544-547", "src/generation.rs"]}
{"id": "C64", "title": "Exactly which traversals are created", "statement": "At any moment the stored traversals correspond one to one to different partial parses: an alternative of the grammar (counted as often as it occurs), a prefix u of the input that a left to right, top down derivation from the start symbol can have consumed when it is expanded, and a list of matched subtrees for the first terms of its right hand side that lie in the input right after u. When the enumeration ends, the stored traversals correspond one to one to all partial parses; so their number does not depend on the order of the productions or alternatives. Without duplicate alternatives the partial parses are those of ordinary parse trees.", "quantifier": "all grammars, start terms, inputs, and numbers of calls", "why_tests_cant": "The set of partial parses is defined by derivability and is unbounded over grammars and inputs; arena sizes are internal.", "anchors": ["src/earley/mod.rs:earley", "src/earley/traversal.rs:TraversalTree::predict_starting", "src/earley/traversal.rs:match_term", "src/earley/mod.rs:TraversalQueue"]}
{"id": "C65", "title": "What a failed reading of grammar text reports", "statement": "When reading a grammar, production, expression or term from text fails, the error is ParseError with the message \"Parsing error: Error(Error { input: <rest>, code: <kind> })\", where <rest> is the debug text of a suffix of the given text and <kind> is Char, Tag, Not or Eof, or, in ABNF grammars, Satisfy; with Eof the rest is not empty. The kind says what is wrong where the rest begins: Char - a bracket of an optional or (BNF) of a name is missing there; Tag - the sign between the sides of a rule is missing there; Not - that sign stands there; Satisfy - no ABNF name begins there. Every error is displayed as its message, and the two other conversions from nom errors give the messages \"Parsing error: Error { input: .., code: .. }\" and \"Parsing error: <kind>\\n <text>\". If a grammar's error is Eof, the text before the reported rest is itself a complete grammar text and the rest starts like a rule (a name, layout and the definition symbol). Conversely, if the text consists of lines that are a complete grammar followed by text that starts like a rule, a failure is reported as Eof at or after the start of that rule. Keeping the error content does not change what succeeds.", "quantifier": "all texts, both notations, all alphabetic predicates that satisfy alphabetic_ok, all debug functions", "why_tests_cant": "Tests check single messages; the place of the error is related here to every way of cutting every text.", "anchors": ["src/error.rs:From", "src/parsers/mod.rs:grammar_complete", "src/parsers/mod.rs:parsed_grammar", "src/parsers/mod.rs:term_complete", "src/parsers/mod.rs:expression_complete", "src/parsers/mod.rs:production_complete", "src/grammar.rs:Grammar::parse_from", "src/error.rs:fmt"]}
{"id": "C66", "title": "The parser sees only the alternatives of the reachable nonterminals", "statement": "If a second grammar gives to every nonterminal reachable from the starting term the same list of alternatives in the same order, under a renaming of nonterminals that keeps the reachable names apart, then parsing any input behaves identically call by call: the same trees in the same order up to the renaming, the end (or a call that never returns) at the same place, after the same number of loop iterations and with the same number of stored traversals. Hence unreachable rules, the order of rules of different nonterminals, and the splitting of a rule's alternatives over several productions cannot be observed, and consistently renaming the nonterminals only renames the trees. The order of alternatives within one nonterminal can be observed.", "quantifier": "all pairs of grammars so related, all starting terms, all inputs, all sequences of calls of next", "why_tests_cant": "Relates unboundedly many pairs of runs, including runs that never return; tests compare single grammars on single inputs.", "anchors": ["src/earley/mod.rs:earley", "src/earley/mod.rs:ParseTreeIter::next", "src/earley/mod.rs:ParseTreeIter::new", "src/earley/traversal.rs:TraversalTree", "src/parser/grammar.rs:ParseGrammar::new_unchecked", "src/parser/grammar.rs:ParseGrammar::get_productions_by_lhs"]}
{"id": "C67", "title": "The derived orders are total orders", "statement": "The order derived for Term is a strict total order in which exactly equal terms compare equal: terminals come before nonterminals, and terms of one kind are ordered by their text in code point order (which is what comparing UTF-8 bytes amounts to). The order derived for Expression is the dictionary order over it: a proper beginning comes first, otherwise the first differing term decides.", "quantifier": "all terms and expressions over Unicode scalar values", "why_tests_cant": "Transitivity, totality and agreement with equality range over all triples of values; byte order against code point order depends on every pair of characters.", "anchors": ["src/term.rs:Term", "src/expression.rs:Expression"]}
{"id": "C68", "title": "Characters instead of bytes", "statement": "For every Unicode text, length, equality, starts_with and get(idx..) computed on the bytes of its UTF-8 encoding, as the core library defines them (get succeeds exactly at a character boundary that is not behind the end), are the operations on lists of characters used by the model of the parser; in particular a terminal matches at a byte offset exactly when its characters match there.", "quantifier": "all texts of Unicode scalar values, all offsets", "why_tests_cant": "All byte offsets of all texts, including offsets inside multi-byte characters.", "anchors": ["src/earley/input_range.rs:InputRange::next", "src/earley/input_range.rs:InputRange::advance_by", "src/earley/mod.rs:earley"]}
{"id": "C69", "title": "Reading takes linear time", "statement": "Reading a grammar from text looks at no more than 134*n+106 characters for a text of n characters, counting every repetition: failed attempts, backtracking out of groups, the lookahead at the end of a production, the detection of the format, and the second reading when the fast path has failed; for one fixed notation the bound is 131*n+102, for a term or an expression 16*n+9 and for a production 32*n+25. This holds for every text, well formed or not. Every character of a text that is accepted is looked at at least once, of a grammar at least four times, so the order of growth is exact; for a term that starts with a quote or angle bracket that is never closed, the rest of the text is searched exactly once. The search for free names during normalization tries at most one candidate for each group and one for each production.", "quantifier": "all texts, both notations", "why_tests_cant": "A parser with alternatives and nested groups can be quadratic or exponential on inputs that a benchmark does not contain; the claim is about the worst text of every length.", "anchors": ["src/parsers/mod.rs:grammar_complete", "src/parsers/mod.rs:parsed_term", "src/parsers/mod.rs:parsed_production", "src/parsers/mod.rs:whitespace_plus_comments", "src/parsers/mod.rs:fresh_anon_name", "src/parsers/nom_xt.rs:xt_list_with_separator", "src/grammar.rs:Grammar::from_str"]}
{"id": "C70", "title": "The probability of a result", "statement": "Generation with RandomWalk, DepthBounded or Weighted (whose weights add up to less than 2^32 in every production) and a callback without state returns a result (a sentence or an error) after l draws exactly if the random numbers take a walk of l draws to it: a walk draws, for each nonterminal from left to right and depth first, one of the equally likely alternatives (RandomWalk: all; DepthBounded: from its limit on those without nonterminals if there are any; Weighted: each repeated as often as its weight says, all alike if every weight is 0), and starts a nonterminal again when the callback refuses its text. Different walks exclude each other; a walk that draws from m_1, ..., m_l alternatives is taken by exactly the share 1/(m_1*...*m_l) of all equally likely sequences of random numbers; and the share for which a result is returned within a given number of draws is the sum over the walks to it. The same holds for CoverageGuided, with tours instead of walks: a tour carries along the set of alternatives seen and draws from those not seen before, or from all if there are none; the alternatives seen in the end are those of the tour, and every tour is taken by some source.", "quantifier": "all grammars accepted by the guard, callbacks, sources of random numbers, sets of alternatives seen before, results, numbers of draws", "why_tests_cant": "A distribution over an infinite set of derivations; tests sample a few seeds and cannot measure exact shares.", "anchors": ["src/grammar.rs:traverse_with_strategy", "src/grammar.rs:generate_seeded_callback_with_strategy", "src/generation.rs:RandomWalk", "src/generation.rs:DepthBounded", "src/generation.rs:Weighted", "src/generation.rs:CoverageGuided"]}
{"id": "C71", "title": "Serialized grammars come back, and which values are accepted as grammars", "statement": "The code derived by serde reads back every term, expression, production and grammar from the value it writes for it. It accepts exactly these values: for a term an object with the single member Terminal or Nonterminal whose value is a text; for an expression, production or grammar either the array of its fields in order or an object whose keys are texts and in which each field (terms; lhs and rhs; productions) occurs exactly once, in any order and among any other members, each field's value being accepted in turn. Nothing else is checked: a terminal on the left of a production or an undefined nonterminal is accepted.", "quantifier": "all JSON values, terms, expressions, productions, grammars", "why_tests_cant": "The repository has no test of the serde feature; the accepted values are infinitely many.", "anchors": ["src/term.rs:Term", "src/expression.rs:Expression", "src/production.rs:Production", "src/grammar.rs:Grammar"]}
{"id": "C72", "title": "Grammars in JSON text", "statement": "Reading JSON text always answers, and accepts exactly the JSON documents of RFC 8259 (layout, escapes, surrogate pairs, numbers without leading zeros, no trailing commas). A text is read as a grammar exactly if it is a document of a value accepted for that grammar. A grammar written compactly or indented is a document of its serialized value and reads back as the same grammar, whatever characters its terminals and names contain; the compact text contains no control characters, and no other document of the same value is shorter; the quote, the backslash and the characters below U+0020 are escaped as in a given table (lower-case hexadecimal digits), every other character is written as it is.", "quantifier": "all texts, values, grammars", "why_tests_cant": "All characters in all names and all spellings of all values; the repository has no test of it.", "anchors": ["src/grammar.rs:Grammar", "src/term.rs:Term", "src/expression.rs:Expression", "src/production.rs:Production"]}
{"id": "C73", "title": "Debug output identifies what it shows", "statement": "The Debug output of a string is a Rust string literal for that string on a single line, and shows ordinary characters unchanged, whichever characters the core library regards as printable. The Debug outputs of strings, terms, expressions, productions, grammars and parse trees, plain and indented, and of errors, differ for different values, also as the beginning of a longer text. Hence the message of a parse error determines the reported rest of the text and the kind. A range held by the parser is shown as the whole input with bars around the part it has matched. In the Debug output of any range, also one that leaves the input or cuts a character, each of the three parts that is not text of the input is left empty.", "quantifier": "all strings, values, indentations, classifications of printable characters; all grammars, inputs and states of the parser", "why_tests_cant": "The repository tests one range and no other Debug output; escapes concern every code point.", "anchors": ["src/earley/input_range.rs:fmt", "src/term.rs:Term", "src/expression.rs:Expression", "src/production.rs:Production", "src/grammar.rs:Grammar", "src/error.rs:Error", "src/grammar.rs:ParseTree", "src/grammar.rs:ParseTreeNode"]}
{"id": "C74", "title": "How deep the recursive functions call themselves", "statement": "Reading a grammar text nests at most one call of the term parser more than the text has opening brackets, and exactly one more than the depth of nested groups if the text is accepted; for every limit there are texts that exceed it. Building a parse tree nests exactly as many calls as the tree is high; this is at most (bytes of input + 1) * (alternatives + 1) when no nonterminal that derives itself is expanded, and already for <s> ::= 'a' <s> | 'a' as many as the input has characters. Generation with DepthBounded(max) nests at most max + 1 calls, with any callback, if every production has an alternative without nonterminals. A limit on nested calls changes nothing unless it is exceeded.", "quantifier": "all texts, formats and limits; all grammars, inputs, iterator states; all strategies, callbacks, random streams and numbers of retries", "why_tests_cant": "The tests nest a few brackets and parse short inputs; a stack overflow aborts the test process.", "anchors": ["src/parsers/mod.rs:parsed_term", "src/parsers/mod.rs:parsed_anonymous_group", "src/parsers/mod.rs:parsed_optional_group", "src/earley/mod.rs:parse_tree", "src/grammar.rs:traverse_with_strategy", "src/generation.rs:DepthBounded"]}
{"id": "C75", "title": "Sentences of the BNF grammar for BNF are grammar texts", "statement": "The files tests/fixtures/bnf.bnf and bnf.abnf are read as the same grammar. Its sentences are exactly the texts made of rules <name> ::= alternatives, each ending with its line, with names of letters, digits and dashes, strings of the listed words, and spaces as layout. Each of them is accepted by Grammar::from_str and read as the grammar it denotes; so is everything generated from the fixture with any lawful strategy and callback, generation with the strategies of the library never reports an error, and every such text is generated by some choices. The parser run with the fixture recognizes exactly these texts. The display of a grammar with such names and strings is one of them, but the fixture's own display is not.", "quantifier": "all strings; all strategies, callbacks, random streams; all grammars with simple names and strings; any is_alphabetic that excludes digits, white space and punctuation", "why_tests_cant": "tests/grammar.rs generates 1000 random sentences and parses each one; the grammar has infinitely many, and nothing compares the grammar read with the sentence.", "anchors": ["src/grammar.rs:generate_seeded", "src/grammar.rs:from_str", "src/parsers/mod.rs:grammar_complete", "src/parsers/bnf.rs:BNF", "src/earley/mod.rs:ParseTreeIter"]}
{"id": "C76", "title": "The property tests of the repository hold for every value of their generators", "statement": "Whatever the random source: values made by the generators of the unit tests are read back from what is displayed, and those generators make exactly the values that can be written; the generators of the parser tests make exactly the grammars of the sizes and references they announce (none with a production that refers to itself or a later one); these give the same trees in every order of their productions, always terminate, and give the same trees at each use; grammars with an undefined name are rejected with a message naming one, and the check for this accepts a parser only if no name is undefined, otherwise only a message with an undefined name; inserting <empty> anywhere keeps the parse of \"a\"; for the three fixed grammars all parses spell the input, both interfaces agree, and generated sentences of at most 50 bytes have a parse; the checks on Mermaid texts pass for every tree (lines with an arrow have exactly four quotation marks, labels none of nine characters) and the decoder undoes the escaping; on other texts it replaces exactly the codes of characters. One test is wrong for unlikely values: a sentence longer than 50 bytes is truncated and need not have a parse.", "quantifier": "all random sources and states; all strings, trees, grammars; any hash order; any is_alphabetic that excludes digits, white space and punctuation", "why_tests_cant": "Each of these tests draws between 50 and 1000 values; the random sources have unboundedly many, and the case in which one test fails is drawn with probability about 2^-25.", "anchors": ["src/term.rs:Term", "src/expression.rs:Expression", "src/production.rs:Production", "src/grammar.rs:escape_mermaid_label", "src/parser/mod.rs:GrammarParser", "src/earley/mod.rs:parse"]}
{"id": "C77", "title": "Generation is sure to end exactly when the rules are not recursive", "statement": "If no nonterminal reached from the first one can be expanded within itself (following first productions, as the generator does), every referenced nonterminal is defined and no production is empty or only empty, then generation succeeds with every strategy that always chooses one of the alternatives, at a recursion depth of at most the number of productions; the four strategies always choose. If on the other hand such a nonterminal can be reached, and all nonterminals are productive with one production each, then there is a source of randomness with which the random walk never ends. Every character of a sentence comes from a terminal of the grammar, and sentences are not empty if no alternative and no terminal is.", "quantifier": "all grammars meeting the conditions; all strategies, states and random sources; all callbacks (for the characters)", "why_tests_cant": "A test sees a generation that ended; that it must end for every source, or need not end for some source, is a statement about infinitely many runs.", "anchors": ["src/grammar.rs:generate_seeded_callback_with_strategy", "src/grammar.rs:traverse_with_strategy", "src/generation.rs:RandomWalk", "src/generation.rs:GenerationStrategy"]}
{"id": "C78", "title": "The repository's tests of random generation, for every source of randomness", "statement": "For every random source and state: the grammar with a group and an optional part generates exactly one of a, b, ac, bc and never fails; DepthBounded(1) on <s> ::= 'a' | '(' <s> ')' gives a or (a) and never fails; CoverageGuided on n terminal alternatives gives each of them once in its first n generations; sentences of the DNA, x and Unicode grammars are not empty and consist of their terminals' characters, with every lawful strategy; Weighted(1,10) selects the second alternative for all draws but one. Two assertions do not hold for every source: that the second alternative is ever selected, and that the average length with Weighted(100,1) is at least that with Weighted(1,100).", "quantifier": "all random sources, states and step limits above a constant; any number of alternatives; any is_alphabetic", "why_tests_cant": "Each test draws up to 100 sentences from one source per run; two of them can fail for an unlucky source, which running them will not show.", "anchors": ["src/generation.rs:DepthBounded", "src/generation.rs:CoverageGuided", "src/generation.rs:Weighted", "src/generation.rs:RandomWalk", "src/grammar.rs:generate"]}
{"id": "C79", "title": "The errors of generation and their causes", "statement": "With every lawful strategy and callback, an error of generation is one of five messages, each with its cause: the first production's left-hand side derives nothing; the grammar is empty; the first left-hand side is a terminal (the message shows the production); a production reachable from the first one has no alternative or only an empty one; the strategy returned nothing. Conversely the empty grammar, a productive first production of a terminal, and a strategy that refuses the first choice give exactly their error; and with RandomWalk, DepthBounded and Weighted (without overflow of the weights) and any callback without state, on a grammar that the guard accepts and that starts with a nonterminal, some random numbers lead to the error about a production without a choosable alternative exactly if the expansion may come to such a production after terms that can be expanded. The built-in strategies are lawful and never return nothing.", "quantifier": "all grammars, lawful strategies, callbacks, random sources and step limits", "why_tests_cant": "A test shows one error for one grammar; that no other error exists and that each has only this cause is about all grammars and strategies.", "anchors": ["src/grammar.rs:generate_seeded_callback_with_strategy", "src/grammar.rs:traverse_with_strategy", "src/grammar.rs:production_has_no_choice", "src/generation.rs:GenerationStrategy"]}
{"id": "C80", "title": "Accessors, mutable iterators and rewriting terminals", "statement": "len, is_empty, get and production_count agree with the iterators. A loop over a mutable iterator calls its body for a prefix of the elements, once each and in order, replaces each by what the body leaves and keeps the rest; the three iterators flattened into each other are one loop over all right-hand terms of the grammar and change nothing but those terms; the one of a parse tree goes over the children of its root. When such a loop rewrites every terminal, validation, building a parser and the terminates test give the same answer as before; the parse trees of the rewritten grammar are exactly the trees of the original with rewritten leaves whose leaves concatenate to the input; and generation from a grammar that passes validation and starts with a nonterminal, with any lawful strategy that does not look at terminal texts, in particular the four built-in ones, makes the same expansion, fails with the same error, or panics as before, and leaves the same state.", "quantifier": "all grammars, loop bodies with any state and early exit, rewritings of terminals, inputs, start terms, hash orders, lawful strategies blind to terminals, random sources and step limits", "why_tests_cant": "tests/iterate.rs rewrites one four-letter grammar with one constant; loops that stop early, and parsing or generating after a rewriting, are not run at all.", "anchors": ["src/grammar.rs:productions_iter_mut", "src/grammar.rs:production_count", "src/production.rs:rhs_iter_mut", "src/production.rs:len", "src/production.rs:is_empty", "src/production.rs:get_expression", "src/expression.rs:terms_iter_mut", "tests/iterate.rs", "src/grammar.rs:rhs_iter_mut"]}
{"id": "C81", "title": "What repeated runs with the coverage-guided strategy cover", "statement": "When sentences are generated one after the other with one CoverageGuided strategy, the first choices made at a production over all runs together are pairwise different alternatives until every alternative has been chosen once. A production that every sentence needs therefore has all its alternatives exercised after as many successful runs as it has alternatives; and with a starting rule of terminals only, as many runs as alternatives produce each alternative exactly once, whatever the random numbers. The documented claim that all options of the grammar are fully explored is false in general: once the alternatives of a production are all seen, the choice there is random again, even if options below it were never used, and some sequence of draws misses them for ever.", "quantifier": "all grammars, random sources, callbacks that do not look at the state, numbers of runs and step limits", "why_tests_cant": "The unit tests call choose a few times on one production or generate a handful of sentences with a fixed seed; what holds over any number of whole runs, for every grammar and every sequence of draws, and the sequence that never reaches an option, cannot be sampled.", "anchors": ["src/generation.rs:139-210", "src/grammar.rs:588-672", "src/grammar.rs:1258-1275"]}
{"id": "C82", "title": "Detection of extended syntax and the fast parser", "statement": "grammar_has_extended_syntax is true exactly for the texts with '(' or '[' outside of string literals, where a literal runs from a quote to the next quote of the same kind. In an accepted text without semicolons whose names contain neither quotes nor opening brackets it is true exactly when the grammar uses a group or an optional. In general it is not: a bracket in a comment or in a name makes it true without groups, and an apostrophe in a comment makes it false although a group follows. The fast parser accepts exactly the texts of two or more productions without groups and optionals, with the grammar that they denote; a single production is rejected by it.", "quantifier": "all texts, both formats, every table of alphabetic characters", "why_tests_cant": "The choice of the parser is not visible in the result of any call, so tests of the public interface cannot observe a wrong choice, and the texts with quotes, brackets and comments in every order cannot be enumerated.", "anchors": ["src/parsers/mod.rs:209-238", "src/parsers/mod.rs:240-263"]}
{"id": "C83", "title": "Linear work for predictive grammars; README's DNA grammar", "statement": "If no alternative is empty or begins with the empty string, and different alternatives of a nonterminal begin with different characters, then every input has at most one parse tree, the iterator returns at most one, and all its calls together make at most p * (n + 1) traversals, p being the number of dotted positions in the alternatives and n the length of the input; so every call returns. The Polish calculator of the benchmarks is such a grammar. README's grammar for DNA is not: it accepts exactly the nonempty sequences of A, C, G, T, each with one tree, which the iterator returns before it ends, but for a sequence of length n at least n(n-1)/2 traversals are made. That no alternative is listed twice is needed: a grammar with one repeated alternative makes the iterator return the single tree of an input of n + 1 characters 2^n times.", "quantifier": "all grammars without duplicated productions satisfying the condition, all inputs, all ways to open the parser; all DNA sequences", "why_tests_cant": "Benchmarks time a few inputs on one machine; a bound needs an invariant over every input and every point at which the iterator is stopped.", "anchors": ["src/earley/mod.rs:1-330", "src/earley/traversal.rs:1-317", "benches/divan.rs:77-108", "README.md:95-125", "examples/parse_tree.rs:1-30"]}
{"id": "C84", "title": "Quadratic work for unambiguous grammars", "statement": "If every input has at most one parse tree and every nonterminal reachable from the starting term generates some string, then at any time the number of traversals is at most (number of positions in alternatives) * (n+1)^2 for an input of n characters, and every call of next returns within that many iterations plus one. The square is attained by README's grammar for DNA. Unambiguity alone is not enough: there is a grammar without any parse tree and without cycles for which rejecting n characters takes at least 2^n traversals. Nor is it enough when an alternative is listed twice.", "quantifier": "all grammars without duplicated productions satisfying the two conditions, all inputs, all ways to open the parser, all numbers of calls", "why_tests_cant": "A bound for all unambiguous grammars quantifies over a class that cannot be enumerated, nor even decided; benchmarks measure single grammars.", "anchors": ["src/earley/mod.rs:1-378", "src/earley/traversal.rs:1-317", "README.md:95-125"]}
{"id": "C85", "title": "Average number of random draws", "statement": "Let every nonterminal have an estimate of the draws needed below it (per depth) such that one draw plus the average, over the alternatives the strategy draws from, of the estimates of their nonterminals does not exceed it. Then generation with RandomWalk, DepthBounded or Weighted and an accepting callback takes at most the estimate of the first nonterminal on average, over all equally likely sequences of random numbers, where calls that do not return within the sequence count with its whole length; hence it ends with probability one. For the grammar of C58, which does not end with probability one, no estimate exists for RandomWalk, but one of two and a half exists for Weighted with the weights 1 and 4.", "quantifier": "all grammars accepted by the guard, all consistent estimates, all lengths of the sequences", "why_tests_cant": "An average over all random sequences cannot be measured by running some of them, and the calls that never return never contribute to a measurement.", "anchors": ["src/generation.rs:RandomWalk", "src/generation.rs:DepthBounded", "src/generation.rs:Weighted", "src/grammar.rs:traverse_with_strategy", "README.md:120-130"]}
{"id": "C86", "title": "Random sentences of the benchmark calculator", "statement": "For the Polish calculator grammar from which the benchmarks generate their inputs, generation with RandomWalk and an accepting callback ends with probability one, but the number of random draws it takes has no finite average: within sequences of 2(B+1)^2 draws at least B draws are taken on average, for every B. Consequently no consistent estimate in the sense of C85 exists for it. With Weighted and the weights 1 and 2 there is one, of six draws.", "quantifier": "all bounds B, all shares 1/k of calls, all bases divisible by 20", "why_tests_cant": "An infinite average shows up in no finite set of runs; the seeded benchmark only ever sees a hundred fixed sentences.", "anchors": ["benches/divan.rs:parse_polish_calculator", "src/grammar.rs:generate_seeded", "src/generation.rs:RandomWalk", "src/grammar.rs:traverse_with_strategy"]}
{"id": "C87", "title": "Which recursion and weights give generation a finite average", "statement": "If nonterminals refer only to themselves and to nonterminals of lower rank, and each occurs less often in its own alternatives than it has alternatives (counted with their weights for Weighted), then RandomWalk and Weighted take a finite number of draws on average. For such grammars weights with this property exist whenever every nonterminal has an alternative that does not mention it. Two tempting generalizations are false: against indirect recursion no weights help (a grammar of which at most two of three calls return, whatever the weights), and with the default weights 100 and 1 at most one of a hundred calls returns for <s> ::= <s> <s> | 'a', although the guard accepts both grammars.", "quantifier": "all grammars accepted by the guard whose recursion is direct, all weights, all lengths of the random sequences", "why_tests_cant": "Averages and probabilities range over all random sequences, and a call that never returns cannot be observed by a test.", "anchors": ["src/generation.rs:Weighted", "src/generation.rs:fill_weights", "src/generation.rs:RandomWalk", "src/grammar.rs:traverse_with_strategy"]}
{"id": "C88", "title": "Average number of draws of the coverage-guided strategy", "statement": "Whenever an estimate in the sense of C85 exists for RandomWalk, CoverageGuided takes on average at most the estimate of the first nonterminal plus, once for every alternative of the grammar, the estimates of its nonterminals, whatever alternatives it has seen before the call; hence it ends with probability one. A CoverageGuided strategy that has seen every alternative behaves exactly like RandomWalk: same result, same random numbers used, and it remains so.", "quantifier": "all grammars accepted by the guard with an estimate, all sets of seen alternatives, all lengths of the random sequences; the second part for all grammars, callbacks without state and random number generators", "why_tests_cant": "The choices depend on the whole history of the strategy object and on the random numbers; a test sees one history and one seed.", "anchors": ["src/generation.rs:CoverageGuided", "src/generation.rs:choose", "src/grammar.rs:traverse_with_strategy"]}
{"id": "C89", "title": "Order of the parse trees", "statement": "The parse trees of an input are totally ordered by when next() first returns them. A tree in which a nonterminal is expanded to itself around the same text comes after the tree without that detour; the first tree has no detour, so its height, and the recursion that builds it, is at most the number of productions times one more than the number of characters, also for cyclic grammars. If exchanging one subtree for another of the same text and nonterminal makes a tree come later, it does so in every tree that has it at that place. The order is not by height (refuted).", "quantifier": "all grammars, start symbols and inputs, all ways of opening the iterator, all parse trees; the exchange for grammars without duplicate alternatives", "why_tests_cant": "The order comes from the interleaving of the work queue over all partial parses; tests compare the trees of a few inputs, and cyclic grammars have infinitely many.", "anchors": ["src/earley/mod.rs:earley", "src/earley/mod.rs:ParseTreeIter", "src/earley/traversal.rs:TraversalTree", "src/earley/mod.rs:CompletionMap"]}
{"id": "C90", "title": "Trees come in rounds", "statement": "Consider parsing in rounds: in each round every prediction, scan and completion that what is known allows is carried out. next() returns the trees in the order of the rounds in which they are found: of two trees of an input, one that is found within k rounds comes before one that is not. The same holds for parts: exchanging a subtree for one of the same nonterminal and text that is found in an earlier round at that place makes the tree come earlier. The rounds find the parse trees and nothing else, each within as many rounds as it has children at all levels, subtrees counting for two.", "quantifier": "all grammars (also with duplicate alternatives), start symbols and inputs, all ways of opening the iterator, all parse trees, all numbers of rounds", "why_tests_cant": "It is a claim about the work queue, the prediction and completion of every partial parse and every pair of trees, including grammars with infinitely many trees.", "anchors": ["src/earley/mod.rs:earley", "src/earley/mod.rs:TraversalQueue", "src/earley/mod.rs:ParseTreeIter", "src/earley/mod.rs:CompletionMap"]}
{"id": "C91", "title": "Infix operators associate to the left first", "statement": "In a grammar whose expressions are operands and `e o e` for operators o (all single characters), the first tree returned for any expression is the one bracketed to the left, whatever the operators and the order of the alternatives: there is no precedence. Anywhere in a tree, an operation whose right operand is an operation comes after the same expression bracketed to the left. The round in which an expression is found is given by an exact formula, and of two bracketings of a part the one with the smaller number comes first. That moving one pair of brackets to the left always makes a tree come earlier is refuted. The number of trees of an expression with k operators is the k-th Catalan number, whatever the operators and operands are; it at least doubles with each further operator. An input that is no expression has no tree, and the first call of `next` returns None.", "quantifier": "all grammars in which the alternatives of one nonterminal are of that form, in any order and among any other productions, all inputs, all trees", "why_tests_cant": "The number of bracketings grows exponentially with the length; the counterexample to the natural generalisation needs eight operands.", "anchors": ["src/earley/mod.rs:earley", "src/earley/mod.rs:ParseTreeIter", "src/earley/traversal.rs:TraversalTree"]}
{"id": "C92", "title": "Cost of building a parse tree", "statement": "Building a returned parse tree looks up traversals a number of times that depends on the tree only: 2 + k + (1 + ... + k) for every node with k children, and every node is built from scratch each time it occurs. So the cost is linear in the number of nodes and quadratic in the length of the alternatives. It is not polynomial in the sizes of grammar and input: for every n there is a grammar of n + 1 rules with exactly one parse of the empty input, found with at most 3n + 2 traversals, whose tree takes 11 * 2^n - 7 lookups to build.", "quantifier": "all grammars, starting terms, inputs and numbers of trees already returned; all n in the counterexample", "why_tests_cant": "The cost is not observable through the API, and the claim relates it to all trees; the blow-up concerns an infinite family of grammars.", "anchors": ["src/earley/traversal.rs:TraversalMatchIter", "src/earley/mod.rs:parse_tree", "src/earley/mod.rs:ParseTreeIter"]}
{"id": "C93", "title": "Generation from the benchmarks' postal grammar", "statement": "The fixture read by the benchmarks is parsed as the expected grammar of 22 productions. None of the four strategies, with any limit or weights, reports an error on it, so the unwraps of the benchmarks do not fail. On average RandomWalk and DepthBounded (any limit) take at most 58.25 random numbers for an address, CoverageGuided at most 272 whatever it has chosen before, and Weighted with the benchmark's weights 100 and 1 at most 52033.25.", "quantifier": "all sources of random values, all limits, weights and histories; the averages over all lists of random numbers of any length", "why_tests_cant": "Averages over all random sources and absence of errors for all of them; the benchmarks use one seed each.", "anchors": ["benches/divan.rs:generation_strategies", "tests/fixtures/postal_address.terminated.input.bnf", "src/generation.rs:RandomWalk", "src/generation.rs:DepthBounded", "src/generation.rs:CoverageGuided", "src/generation.rs:Weighted"]}
{"id": "C94", "title": "Parse trees of random postal addresses", "statement": "For the benchmarks' postal grammar the parser is built, and for every input the iteration over all parse trees ends, with exactly the parse trees of the input; a generated address has at least one. But the average number of parse trees of a random address is infinite: for every B there is a number of draws within which the addresses returned have, on average over all lists of random numbers, at least B trees.", "quantifier": "all inputs, all iteration orders, all sources of random numbers, all B", "why_tests_cant": "A heavy-tailed average cannot be seen from 100 samples of one seed; ending concerns all inputs.", "anchors": ["benches/divan.rs:parse_postal_input", "benches/divan.rs:parse_postal_with_parser", "src/earley/mod.rs:ParseTreeIter", "src/generation.rs:RandomWalk"]}
{"id": "C95", "title": "The example programs and the parsing benchmarks", "statement": "For every source of random numbers examples/create_grammar.rs prints the structure of the grammar and a nonempty sequence of A, C, G and T, nothing on standard error, and every such sequence can be printed. For every sentence in place of GATTACA the other two examples print the picture of the one parse tree when the sentence is a nonempty sequence of bases, and otherwise that it cannot be parsed. The benchmarks' calculator generates expressions in Polish notation only, each of which has exactly one parse tree, its own, found with a number of stored traversals linear in the length; distinct expressions have distinct texts and other texts have no tree. The benchmark with the nullable cycle takes, for every k, the trees that run 0 to k-1 times around the cycle, in this order, with 4 k^2 lookups to build them.", "quantifier": "all sentences, all sources of random numbers, all iteration orders, all k", "why_tests_cant": "The examples run one sentence and one random sequence; the benchmarks drop what they compute and check nothing.", "anchors": ["examples/create_grammar.rs:main", "examples/parse_tree.rs:main", "examples/parse_tree_explicit_entrypoint.rs:main", "benches/divan.rs:parse_polish_calculator", "benches/divan.rs:parse_infinite_nullable_grammar"]}
{"id": "C96", "title": "The parser's table of productions and its window on the input", "statement": "Production number k of the table is the k-th alternative of the grammar with its left-hand side, a larger number panics, the productions found for a left-hand side are its alternatives in order, and the validating constructor builds the same table. A window on b between a and c shows c next; the window after it is empty and stands before c; advancing by a prefix of c moves exactly this prefix into the window; advancing by more than the rest takes the rest; it is complete exactly when a and c are empty. A step into the middle of a character leaves nothing to be read.", "quantifier": "all grammars, inputs, windows and steps", "why_tests_cant": "The tests of input_range.rs use one ASCII string; the table is only used through whole parses of small grammars.", "anchors": ["src/append_vec.rs:AppendOnlyVec", "src/parser/grammar.rs:ParseGrammar", "src/earley/input_range.rs:InputRange"]}
{"id": "C97", "title": "The tree of traversals under arbitrary operations", "statement": "After any sequence of predictions and matches the id returned for a request is the position of its key among the keys in the order of first use; so two requests return the same traversal exactly when they are for the same production at the same position, or for the same match below the same parent. A root stores what its first request said; a child stores the parent's production and flag, one term less and the window grown by what was matched, and ids of parents and of matched traversals are smaller. The matches of a traversal are its parent's and the last one, as many as terms of the production are gone. Later operations change nothing stored. A match succeeds exactly when parent and matched traversal exist, a term is left and the window begins within the input, and panics otherwise; a prediction always succeeds.", "quantifier": "all sequences of operations", "why_tests_cant": "The tests of traversal.rs apply at most three operations to one grammar.", "anchors": ["src/earley/traversal.rs:TraversalTree", "src/earley/traversal.rs:TraversalMatchIter", "src/append_vec.rs:AppendOnlyVec"]}
{"id": "C98", "title": "The queue and the completion map, and the history of a parse", "statement": "For any sequence of pushes and pops the queue returns the first occurrences of the pushed ids, in order, each once and for ever, and nothing only when none is left. For any insertions, the completion map returns in increasing order and without repetition exactly the ids of the inserted traversals that wait for the term at the place where the given one starts, or that are complete for the term and start where the given window ends. At every point of a parse the tree is the result of a sequence of operations that returned the ids 0, 1, 2, ... for the first time in this order; the processed traversals are an initial segment of the ids and the queued ones the rest, in order; and the completion map holds exactly the processed traversals that wait for a nonterminal or are complete, under the left-hand side of their production.", "quantifier": "all sequences of operations; all grammars, starting terms and inputs, any number of returned trees", "why_tests_cant": "There are no tests of the queue and of the completion map; a parse that processed a traversal twice, or never, shows only on some grammars.", "anchors": ["src/earley/mod.rs:TraversalQueue", "src/earley/mod.rs:CompletionMap", "src/earley/mod.rs:ParseTreeIter"]}
{"id": "C99", "title": "Grammars in a format defined by the user", "statement": "Format is a public trait. For every implementation whose opening delimiter, alternative separator and first character of the production separator are pairwise different and are no white space, semicolon, quote or bracket (nor, without delimiters, alphabetic), Grammar::parse_from accepts exactly the texts of that format, described independently of the parser, and returns the normalized grammar; a text denotes at most one grammar; the same grammar written in two such formats reads the same; neither the choice of the fast path nor production_start_char influences the result; and the grammars read are well formed. BNF and ABNF are instances. With an empty production separator every text is rejected. Without the condition the claims fail: equal separators exclude alternatives, quotes as delimiters make names ambiguous, and with brackets as separators production_start_char decides whether a text is read.", "quantifier": "all formats satisfying the condition (any delimiters, separators and start characters), all texts", "why_tests_cant": "The repository tests two formats; there are infinitely many implementations of the trait, and each accepts infinitely many texts.", "anchors": ["src/parsers/mod.rs:Format", "src/parsers/mod.rs:grammar_complete", "src/parsers/mod.rs:production_start_char", "src/grammar.rs:parse_from"]}
{"id": "C100", "title": "Generation sees only the first rule of the nonterminals it can come to", "statement": "If a second grammar gives to every nonterminal that the expansion of the starting rule can come to the same first production (under a renaming that keeps those names apart), and leaves the nonterminals without a rule without one, then each of the four built-in strategies started from the same random state gives on both grammars the same text or the same error, leaving the generator in the same state, with a callback that treats corresponding names alike. The same holds for a single expansion with any pair of strategies and callbacks that correspond. Hence rules that cannot be reached, second rules for a nonterminal, the order of rules for different nonterminals (after the first rule), the addresses that CoverageGuided uses as keys and the names of the nonterminals cannot be observed in generated text. The order of two rules for the same nonterminal can be observed, and so can the name of a nonterminal without a rule.", "quantifier": "all pairs of grammars so related that pass the termination check, all random number generators and initial states, all callbacks, all strategy parameters, every fuel", "why_tests_cant": "The claim relates infinitely many pairs of grammars and every random sequence; a test compares one pair under one seed.", "anchors": ["src/grammar.rs:traverse_with_strategy", "src/grammar.rs:generate_seeded_callback_with_strategy", "src/grammar.rs:terminates", "src/generation.rs:CoverageGuided", "src/generation.rs:Weighted", "src/generation.rs:DepthBounded", "src/generation.rs:RandomWalk"]}
{"id": "C101", "title": "Adding and removing rules", "statement": "The trees returned for an input are exactly the trees with that text and the starting term at the root each node of which is a use of a rule. Hence add_production and add_to_rhs lose no tree, and a tree is new exactly when one of its nodes is allowed by the new rule or alternative only; remove_production and remove_from_rhs add no tree and lose exactly the trees with a node that nothing that remains allows. Every text that some strategy can generate can still be generated, with the same callback, after an alternative has been added, if no rule of the new grammar has a single, empty alternative. What is not kept: adding a rule can make the enumeration of trees endless, adding an alternative can exchange the order of trees that were there before, and a rule for a nonterminal that had none takes away the texts that print its name.", "quantifier": "all grammars, rules and alternatives added or removed, all starting terms and inputs, all trees; all strategies that return offered alternatives and all callbacks", "why_tests_cant": "It relates all trees of two infinite families of grammars; a test edits one grammar and looks at some trees of one input.", "anchors": ["src/grammar.rs:add_production", "src/grammar.rs:remove_production", "src/production.rs:add_to_rhs", "src/production.rs:remove_from_rhs", "src/grammar.rs:parse_input", "src/grammar.rs:generate_seeded"]}
{"id": "C102", "title": "Equality and hashing agree", "statement": "The derived Hash implementations of Term, Expression, Production and Grammar, and of the keys of the parser's tables (edges, roots, completion keys), feed the hasher bytes from which the value can be read back, even when further values follow: two values are equal exactly when they feed the same bytes, so a collision can only come from the hashing function. Whatever that function and the number of buckets, a table that finds keys by hash and compares them with == answers like the association lists with which the model represents the maps of the crate.", "quantifier": "all values whose lengths fit into a machine word of any size, all hashing functions, all sequences of insertions and lookups", "why_tests_cant": "Tests never look at the bytes fed to a hasher; a wrong Hash would show as a rare lookup failure or a slow table for some keys among infinitely many.", "anchors": ["src/term.rs:Term", "src/expression.rs:Expression", "src/production.rs:Production", "src/grammar.rs:Grammar", "src/earley/traversal.rs:TraversalEdge", "src/earley/traversal.rs:TraversalRoot", "src/earley/mod.rs:CompletionKey"]}
{"id": "C103", "title": "The size of a grammar read from text, and of its Display", "statement": "Normalization adds exactly one production for each group and optional, and one alternative with the empty terminal for each optional (and each group without alternatives); it adds no characters to terminals. Hence a grammar read by str::parse from n characters has terms and terminal characters that together number at most n - 3, at most as many alternatives as terms, and at most (n - 2) / 2 productions. Nested optionals attain all three bounds for every depth. The Display of a grammar in which every production has alternatives and none is empty takes, exactly, the characters of all its terms plus 3 for each term on a right hand side, 2 for each alternative and 5 for each production; hence the Display of a grammar read from n <= 10^d characters has at most (d + 14) n characters. The logarithm is needed: because of the numbers in the made-up names, nested optionals of n = 4 * 10^d + 4 characters are displayed in at least d n / 8 characters.", "quantifier": "all extended grammars; all accepted texts in either notation; all depths of nesting; all well-formed grammars", "why_tests_cant": "Blow-up of the rewriting of groups would only show on large or deeply nested inputs; tests cannot bound the size for all texts.", "anchors": ["src/parsers/mod.rs:normalize_parsed_grammar", "src/parsers/mod.rs:lower_term", "src/grammar.rs:parse_from", "src/grammar.rs:FromStr", "src/grammar.rs:fmt", "src/production.rs:fmt", "src/expression.rs:fmt", "src/term.rs:fmt"]}
{"id": "C104", "title": "Alternation, sequence, repetition and reversal of grammars", "statement": "Put in front of the rules of two grammars whose names do not interfere, a rule <n> ::= <a> | <b> makes the parser return exactly the trees of either grammar below a new node (their numbers add up, if no alternative is listed twice), and a rule <n> ::= <a> <b> exactly the pairs of trees for the two parts of the input over all cuts (under the same condition the numbers multiply for each cut); <n> ::= '' | <a> <n> accepts exactly the sequences of texts that the grammar accepts. When every alternative and every terminal is reversed the parser returns for the reversed input exactly the reversed trees. If a parser can be built of the parts it can be built of the result. The same holds for generation: with separate names and one rule for each name, the texts that the default strategy can generate from the result are exactly those of either grammar, the concatenations of a text of the one and a text of the other, the sequences of texts, and the reversed texts.", "quantifier": "all pairs of grammars (ambiguous, left-recursive and cyclic ones included) with separate names; all inputs; every entry point of the parser; for generation, grammars with one rule for each name", "why_tests_cant": "These are relations between the complete results of different grammars on the same or cut or reversed input; tests compare single results of fixed grammars.", "anchors": ["src/parser/mod.rs:parse_input_starting_with", "src/grammar.rs:build_parser", "src/earley/mod.rs:parse", "src/grammar.rs:from_parts", "src/grammar.rs:generate"]}
{"id": "C105", "title": "The log of a parse", "statement": "With the feature tracing the parser computes the same iterators and trees as without it. What it reports to a subscriber is: the spans of the call that opens the iterator, with one prediction for each alternative of the start; then, for each call of next, inside the span earley, for every traversal taken from the queue the event of the pop and one span, Predict, Scan or Complete, according to what the traversal waits for; in it one 'predicted' for each alternative of the awaited nonterminal, one 'prior_completed' for each finished traversal of it from this position that was taken before, one 'scanned' if the input goes on with the awaited terminal, one 'completed' for each traversal taken before that waits for what was completed at its start; the reported ids are those of the resulting traversals; then, if there is a tree, the span next_parse_tree with one iterator for each node and the text of the tree that is returned. Spans are properly nested. The traversals are taken in the order of their ids, each once; their ids are announced for the first time in that order too; at the end the number of pops is the number of partial parses.", "quantifier": "all grammars, inputs, starts and entry points; any number of calls of next", "why_tests_cant": "The tests of tracing.rs only check that the macros compile; no test looks at what is reported.", "anchors": ["src/tracing.rs:span", "src/tracing.rs:event", "src/earley/mod.rs:earley", "src/earley/mod.rs:parse_tree", "src/earley/mod.rs:next", "src/earley/traversal.rs:_predict", "src/earley/traversal.rs:match_term", "src/earley/traversal.rs:get_matched"]}
{"id": "C106", "title": "The log of reading a text", "statement": "With the feature tracing a grammar, production, expression or term text is read, and a parser is made, with the same result as without it. What is reported is properly nested, for refused texts too, and its length is at most proportional to that of the text (at most 786 n + 614 entries for n characters). For the text of a grammar with an opening bracket outside of string literals only the skipping of layout is reported: once at the start and the end, for each name, string, group, separator, left-hand side and definition sign, and three times more for each rule that follows another (its name is tried as a term and as a left-hand side first). For the text of a grammar of two or more rules without groups and without such a bracket, the log is that of the fast parser: for each rule the left-hand side, each alternative with each term (for a name after a failed attempt at a string) and the failed attempt after its last term (which finds a name if another rule follows), the attempt at the next alternative, the look ahead for the next rule (by its first character in BNF, by its left-hand side in ABNF), and at the end a failed attempt at a rule. For a single rule the log of both parsers is reported, that of the fast one first. The log of an accepted term, expression or production is the corresponding part. from_str skips layout once before, to find out the notation.", "quantifier": "all texts, both notations, all grammars", "why_tests_cant": "No test looks at what is reported; how often a text is read again after a failed attempt does not show in results.", "anchors": ["src/parsers/mod.rs:nonterminal", "src/parsers/mod.rs:prod_lhs", "src/parsers/mod.rs:prod_rhs", "src/parsers/mod.rs:terminal", "src/parsers/mod.rs:whitespace_plus_comments", "src/parsers/mod.rs:term", "src/parsers/mod.rs:expression_next", "src/parsers/mod.rs:expression", "src/parsers/mod.rs:production", "src/parsers/mod.rs:plain_grammar", "src/parsers/mod.rs:grammar_complete", "src/parser/mod.rs:new", "src/parser/grammar.rs:new"]}
{"id": "C107", "title": "Seeds", "statement": "generate, generate_callback, generate_seeded and generate_seeded_callback are RandomWalk seeded with 32 bytes of the given generator (the first two make that generator from 32 bytes of the system). A sentence takes exactly these 32 bytes from the caller's generator whatever the grammar, callback and outcome; so in a series of sentences from one generator the i-th depends only on the generator, i and the i-th grammar. CoverageGuided::new and Weighted::new (and the defaults, with weights 100 and 1) always have the seed 0, RandomWalk::default and DepthBounded::new take one from the system; the public fields are what the constructors are given, and generating keeps them. Reusing one strategy instead gives other sentences.", "quantifier": "all generators, system generators, grammars, callbacks, seeds, limits and weights", "why_tests_cant": "The tests run one generator with a few seeds; that a sentence leaves the caller's generator in a state independent of the grammar and outcome is a statement about all runs.", "anchors": ["src/grammar.rs:generate_seeded", "src/grammar.rs:generate_seeded_callback", "src/grammar.rs:generate", "src/grammar.rs:generate_callback", "src/generation.rs:RandomWalk", "src/generation.rs:DepthBounded", "src/generation.rs:CoverageGuided", "src/generation.rs:Weighted"]}
{"id": "C108", "title": "Machine integers do not overflow", "statement": "With usize of bounded size, in builds with overflow checks (an overflow panics) and without (the result is taken modulo the number of words), every function that adds or subtracts sizes returns what it returns with unbounded numbers. Parsing (opening an iterator and every call of next on it) never leaves the bounds if the byte length of the input fits into a word; reading a grammar, in BNF, ABNF or a format of the user's as in C99, if the number of characters of the text does (the counter of generated names is at most the number of productions, groups and optionals); Mermaid output if the number of edges of the tree fits; Display of a tree if its height fits; generation if the number of nested calls fits. Below these bounds the builds do differ from the unbounded functions.", "quantifier": "all word sizes, both kinds of build, all grammars, inputs, texts, parse trees, strategies, callbacks and states", "why_tests_cant": "An overflow of a 64-bit word needs inputs no test can hold; on small words tests reach only a few of the states of the parser.", "anchors": ["src/earley/input_range.rs:total_len", "src/earley/input_range.rs:next", "src/earley/input_range.rs:after", "src/earley/input_range.rs:advance_by", "src/earley/mod.rs:next", "src/parsers/mod.rs:fresh_anon_name", "src/grammar.rs:fmt_node_prefix", "src/grammar.rs:fmt", "src/grammar.rs:eval_terminal_with_strategy"]}
{"id": "C109", "title": "How far into the input the parser gets", "statement": "When every nonterminal that can be reached generates something, the parser stores a partial parse that ends at some byte of the input only if what comes before is the text of the first leaves of some parse tree, so that it can be continued to a sentence; at the end it has stored one for every such byte. With terminals of at most one character these are exactly the beginnings of sentences, so the parser stops at the first character at which no sentence goes on. What follows the first wrong terminal does not matter: two inputs that go wrong after the same text both give no tree, both enumerations end or both do not, and both store the same number of partial parses. The conditions on nonterminals and terminals cannot be dropped.", "quantifier": "all grammars in which the reachable nonterminals generate something, all start terms, inputs and entry points", "why_tests_cant": "The beginnings of sentences are defined by infinitely many continuations, and how far the parser got is internal.", "anchors": ["src/earley/mod.rs:earley", "src/earley/traversal.rs:predict", "src/earley/traversal.rs:predict_starting", "src/earley/input_range.rs:next", "src/earley/traversal.rs:match_term"]}
{"id": "C110", "title": "The steps of a parse", "statement": "The loops inside the main loop of the parser do no more than the number of stored traversals accounts for. Each call of match_term makes a traversal that was not there before: at any time the results of the calls made so far are different, and they are exactly the stored traversals that have something matched. There is one prediction for each alternative of a nonterminal every time a traversal waiting for it is taken from the queue. So everything reported to tracing when all trees have been taken, trees included, is at most (10 + 3 times the largest number of alternatives of a left-hand side) entries for each traversal, six for each node of the trees, and a constant for each call; with C83 and C84 this is linear or quadratic in the length of the input apart from the trees. Whenever an id is put into a vector of the completion map it goes to the end, so that keeping these vectors sorted moves nothing.", "quantifier": "all grammars, start terms, inputs, entry points and moments of the enumeration", "why_tests_cant": "The number of inner iterations is not observable and has to be bounded for every grammar and input.", "anchors": ["src/earley/mod.rs:earley", "src/earley/traversal.rs:match_term", "src/earley/traversal.rs:predict", "src/earley/mod.rs:CompletionMap"]}
{"id": "C111", "title": "What a parse keeps in memory", "statement": "After any number of calls of next the two tables of the traversal tree have exactly one entry for each traversal, one for the predicted and the other for the matched ones; the set of processed ids has each traversal once; the vectors of the completion map together have each traversal exactly once that left the queue and waits for a nonterminal, or is complete, and no vector is empty. So with n traversals between 3n and 5n entries are kept. No call removes anything, also not the one that finds no further tree. Memory is therefore at most 5p(n+1) entries for predictive grammars and 5p(n+1)^2 for unambiguous grammars without useless nonterminals and without repeated alternatives, p being the number of positions in the alternatives and n the length of the input.", "quantifier": "all grammars, starting terms and inputs, all ways to open the parser, any number of calls of next whatever they return", "why_tests_cant": "Tests do not look at the private tables; a leak or a missing entry shows only as slowness or memory use on some inputs, and the bounds speak about all inputs.", "anchors": ["src/earley/mod.rs:TraversalQueue", "src/earley/mod.rs:CompletionMap", "src/earley/mod.rs:ParseTreeIter", "src/earley/traversal.rs:TraversalTree", "src/append_vec.rs:AppendOnlyVec"]}
{"id": "C112", "title": "The size of formatted parse trees", "statement": "The Display text of a parse tree has exactly four characters for each node and each of its ancestors, plus the characters of the node's line and a line break; hence at most (number of nodes) * (4 * height + longest line + 1) characters. The Mermaid text has exactly 13 characters plus, for each non-root node, the digits of two numbers, two escaped labels and 14 further characters; with up to 10^k nodes and labels of at most m characters at most 13 + (nodes - 1) * (2k + 8m + 14), whatever the height. For <s> ::= 'a' <s> | 'a' and n letters the Display text has 4n^2 + 20n - 4 characters: it grows with the square of the input, while the Mermaid text does not.", "quantifier": "all parse trees (Mermaid: with nonterminals as inner nodes); all input lengths", "why_tests_cant": "Exact sizes for all shapes of trees; growth for all input lengths.", "anchors": ["src/grammar.rs:fmt", "src/grammar.rs:fmt_node_prefix", "src/grammar.rs:escape_mermaid_label"]}
{"id": "C113", "title": "Grammars and inputs in another alphabet", "statement": "If every character of the terminals and of the input is replaced by its word in a prefix code (no word empty or the beginning of another), every call of next returns the same as before with encoded leaves: the same trees in the same order after the same number of steps, ending or not at the same place, with the same number of stored traversals. So a grammar of UTF-8 bytes parses the bytes of a text as the grammar of characters parses its characters, and one-to-one replacement of letters changes nothing. With any other code that can be decoded the trees are still the encoded ones, each from exactly one tree, but more traversals may be stored; with different words that cannot be decoded there may be more trees.", "quantifier": "all grammars, inputs, start terms, entry points and numbers of calls; all alphabets and codes that are prefix codes, or decodable, on the characters that occur", "why_tests_cant": "infinitely many grammars, inputs and codes; byte offsets of the original and the encoded input differ, so that every comparison of positions has to be shown to come out the same", "anchors": ["src/earley/input_range.rs:next", "src/earley/input_range.rs:advance_by", "src/earley/traversal.rs:match_term", "src/earley/traversal.rs:_predict", "src/earley/mod.rs:earley", "src/earley/mod.rs:parse_tree"]}
{"id": "C114", "title": "Grammars written in another way", "statement": "If two grammars have the same alternatives for the same names except for where consecutive terminals are cut (empty terminals count as no terminal), the parser returns the same trees for every input, up to the cuts between leaves; one for one, if no name has two alternatives that differ in the cuts only. If in one alternative a name is replaced by each of its alternatives, exactly the same inputs are accepted, every tree comes back with the nodes for the name taken out at the places of that alternative, and this is one for one if no alternative is listed twice before or after; the default strategy can generate the same texts, for grammars with one rule for each name. If alternatives that generate no part of the input are left out, such as those with a terminal that is not in the input or with a name that generates nothing, exactly the same trees are returned. The enumeration of the trees ends for one form if and only if it ends for the other, in the first case always and in the second if the name has an alternative; leaving out alternatives can make an enumeration end that does not end with them. Without the conditions the numbers of trees can differ in the first two cases, and an enumeration can end only for the written-out form in the second.", "quantifier": "all grammars (ambiguous, left-recursive and cyclic ones included), all inputs, start terms and entry points of the parser; all alternatives and all names in them, the name of the rule itself included; for generation, grammars with one rule for each name", "why_tests_cant": "infinitely many grammars, inputs and rewritings of grammars; whether an input is rejected by both forms cannot be seen from examples", "anchors": ["src/earley/mod.rs:earley", "src/earley/mod.rs:parse_tree", "src/grammar.rs:parse_input_starting_with", "src/grammar.rs:eval_terminal_with_strategy"]}
{"id": "C115", "title": "Parts of parse trees, and long inputs", "statement": "Every subtree of a returned parse tree is itself returned when its own text is parsed with its label as the start term, and at its place in the tree exactly the trees can stand that are returned for that label: exchanging it for one of them, for any text, gives a tree that is returned for the input with the text of the subtree exchanged. The text of a tree of height h is at most W^h characters long, where W is the length of the longest alternative (names count as one character, at least 1). With n rules, in an accepted input of more than W^n characters there are two pieces, not both empty and within a stretch of at most W^(n+1) characters, that can be repeated together any number of times or left out, and the input is still accepted. So a grammar that accepts anything accepts an input of at most W^n characters; it accepts inputs of unbounded length exactly if it accepts one of more than W^n and at most W^n + W^(n+1) characters; and no grammar accepts exactly the texts of n times a, n times b and n times c, while one does for a and b.", "quantifier": "all grammars (ambiguous, left-recursive and cyclic ones included), all inputs, start terms and entry points of the parser, all trees returned and all places in them, all numbers of repetitions, all three different characters", "why_tests_cant": "infinitely many grammars and inputs; that no grammar at all accepts a set of texts, or that an input is rejected for every grammar, cannot be tested", "anchors": ["src/earley/mod.rs:earley", "src/earley/mod.rs:parse_tree", "src/grammar.rs:parse_input_starting_with", "src/parser/mod.rs:parse_input_starting_with"]}
{"id": "C116", "title": "The number of parse trees", "statement": "A function that knows nothing of the parser counts, by recursion over the height, the ways to read an input as a name: the sum over the alternatives, and in an alternative over the places where the input can be cut, of the products of the counts for the parts. For every height h the parser never returns more trees of at most that height than are counted for h, and at some point has returned as many, alternatives that are listed more than once counting as often. With r rules and an input of l characters, r * (l + 1) levels are enough: if the enumeration ends, the number of all the trees returned is the count for that height (or any larger one), the input is accepted exactly if that count is not 0, and finitely many different trees are returned exactly if none is higher. Trees of that height exist.", "quantifier": "all grammars (ambiguous, left-recursive, cyclic and with repeated alternatives), all inputs, all names as start, all entry points of the parser, all heights", "why_tests_cant": "the number of trees grows exponentially with the input and is infinite for cyclic grammars; that no tree is missing or returned too often can be checked by tests for a few small inputs only", "anchors": ["src/earley/mod.rs:earley", "src/earley/mod.rs:parse_tree", "src/grammar.rs:parse_input_starting_with", "src/parser/mod.rs:parse_input_starting_with"]}
{"id": "C117", "title": "Rules without left recursion", "statement": "A rule a ::= <a> x | y (any number of each) can be replaced by a ::= y <b> and b ::= x <b> | \"\" with a name b that is new, if a has no alternatives elsewhere. The same inputs are then accepted for every name but b, and of a complete grammar the same texts can be generated. If no y begins with <a>, the parser returns exactly the old trees with what was added on the right of a moved below nodes for b, also if the enumeration does not end; if it ends, they correspond one for one (alternatives that are listed more than once included), so every input is as ambiguous as before, and it ends for the new rules exactly if it ends for the old ones. Without the conditions this is false: there are grammars in which b is used already, or a has other rules, and another input is accepted, and ones in which a y begins with <a> and the trees are others.", "quantifier": "all grammars with such a rule, all sequences of terms for the x and y (empty ones included), all inputs, all names as start, all entry points of the parser", "why_tests_cant": "left-recursive rules are what the prediction and completion steps can get wrong for some nesting depth only; that two different grammars agree on all inputs and on the number of trees cannot be tested", "anchors": ["src/earley/mod.rs:earley", "src/earley/mod.rs:parse_tree", "src/grammar.rs:parse_input_starting_with", "src/grammar.rs:generate", "src/parser/mod.rs:parse_input_starting_with"]}
