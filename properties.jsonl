{"id": "C01", "title": "Grammar::new classifies symbols", "statement": "For every rule map that contains the start symbol, Grammar::new succeeds exactly when the start rule has a production (debug builds: exactly one), and then terminals = the right-hand-side symbols without a rule, plus eof; symbols = the rule names plus the terminals; is_terminal(x) holds exactly when x has no rule; basis is the start rule's first production at dot 0 with lookahead {eof}.", "quantifier": "all rule maps, start and eof symbols, build modes", "why_tests_cant": "the classification must be right for every grammar a user writes", "anchors": ["src/grammar.rs::Grammar::new", "src/grammar.rs::Grammar::is_terminal"]}
{"id": "C02", "title": "FIRST is exact", "statement": "Whenever Tabler::new returns, the terminals in first[A] are exactly the terminals t such that A derives some sentential form beginning with t.", "quantifier": "all grammars (and build modes) on which Tabler::new returns, all nonterminals, all terminals", "why_tests_cant": "an unbounded set of derivations; the unit tests compare six literal tables", "anchors": ["src/tabler.rs::gen_first", "src/tabler.rs::first_step", "src/tabler.rs::proc_first"]}
{"id": "C03", "title": "FOLLOW is exact", "statement": "Whenever Tabler::new returns, the terminals in follow[A] are exactly those that can follow A: t follows A when some rule's right-hand side has A immediately before a symbol whose expansion can begin with t, or A ends a right-hand side of a rule B that t follows, and eof follows the start symbol. In particular every t with start =>* u A t v is in follow[A], and conversely when every rule is reachable from the start symbol.", "quantifier": "all grammars on which Tabler::new returns", "why_tests_cant": "unbounded derivations", "anchors": ["src/tabler.rs::gen_follow", "src/tabler.rs::follow_step", "src/tabler.rs::proc_follow"]}
{"id": "C04", "title": "Tabler::new terminates", "statement": "Tabler::new returns for every grammar without empty productions.", "quantifier": "all grammars", "why_tests_cant": "non-termination cannot be observed by a test that must finish; the failing family (indirect recursion through cycles whose length is not a power of two) is infinite", "anchors": ["src/lib.rs::transitive", "src/tabler.rs::Tabler::new"]}
{"id": "C05", "title": "FIRST and FOLLOW hold only terminals", "statement": "After Tabler::new returns, no nonterminal is left in any FIRST or FOLLOW set (the code's own debug_assert).", "quantifier": "all grammars on which the fixpoint loop stops, debug and release builds", "why_tests_cant": "an invariant of a fixpoint over arbitrary grammars", "anchors": ["src/tabler.rs::proc_first", "src/tabler.rs::proc_follow"]}
{"id": "C06", "title": "Item-set closure", "statement": "prop_closure of Slr, Clr and Lalr terminates on every set of positions of the grammar, never panics, and returns the least set containing the seed that is closed under: [A -> u . B v; L] puts [B -> . w; FIRST(v) or L] for every production of B. It is idempotent.", "quantifier": "all grammars, all seeds", "why_tests_cant": "fixpoint over arbitrary item sets", "anchors": ["src/slr.rs::closure", "src/clr.rs::closure", "src/clr.rs::prop_closure", "src/lalr.rs::prop_closure"]}
{"id": "C07", "title": "Clr construction is total", "statement": "Once Tabler::new has returned, Clr::with_table returns (no divergence, no panic, in debug and release) for every grammar.", "quantifier": "all grammars", "why_tests_cant": "totality over all grammars; the docs say 'Panics: Never'", "anchors": ["src/clr.rs::proc_closures", "src/clr.rs::proc_actions", "src/clr.rs::decision"]}
{"id": "C08", "title": "Slr construction is total", "statement": "Once Tabler::new has returned, Slr::with_table returns (no divergence, no panic, in debug and release) for every grammar.", "quantifier": "all grammars", "why_tests_cant": "totality over all grammars; the docs say 'Panics: Never'", "anchors": ["src/slr.rs::proc_closures", "src/slr.rs::proc_actions", "src/slr.rs::decision"]}
{"id": "C09", "title": "Lalr construction is total", "statement": "Once Tabler::new has returned, Lalr::with_table returns (no divergence, no panic, in debug and release) for every grammar.", "quantifier": "all grammars", "why_tests_cant": "totality of a mutually recursive state-merging loop", "anchors": ["src/lalr.rs::proc_closures", "src/lalr.rs::update_closures", "src/lalr.rs::update_state", "src/lalr.rs::decision"]}
{"id": "C10", "title": "Clr is sound", "statement": "If Clr's validate/parse accepts a token sequence then the sequence of token types is derivable from the start symbol.", "quantifier": "all grammars whose tables were built, all token sequences", "why_tests_cant": "infinitely many inputs", "anchors": ["src/clr.rs", "src/dfa.rs::travel", "src/parser.rs::validate"]}
{"id": "C11", "title": "Slr is sound", "statement": "If Slr's validate/parse accepts a token sequence then the sequence of token types is derivable from the start symbol.", "quantifier": "all grammars whose tables were built, all token sequences", "why_tests_cant": "infinitely many inputs", "anchors": ["src/slr.rs", "src/dfa.rs::travel", "src/parser.rs::validate"]}
{"id": "C12", "title": "Lalr is sound", "statement": "If Lalr's validate/parse accepts a token sequence then the sequence of token types is derivable from the start symbol.", "quantifier": "all grammars whose tables were built, all token sequences", "why_tests_cant": "infinitely many inputs", "anchors": ["src/lalr.rs", "src/dfa.rs::travel", "src/parser.rs::validate"]}
{"id": "C13", "title": "Clr is complete", "statement": "Every sentence of the grammar is accepted by the Clr parser, unless the run stops with Error::Conflict; with no conflicts reported by conflicts() every sentence is accepted.", "quantifier": "all grammars, all sentences", "why_tests_cant": "infinitely many sentences", "anchors": ["src/clr.rs", "src/dfa.rs", "src/tabler.rs::conflicts"]}
{"id": "C14", "title": "Slr is complete", "statement": "Every sentence of the grammar is accepted by the Slr parser, unless the run stops with Error::Conflict; with no conflicts reported by conflicts() every sentence is accepted.", "quantifier": "all grammars, all sentences", "why_tests_cant": "infinitely many sentences", "anchors": ["src/slr.rs", "src/dfa.rs", "src/tabler.rs::conflicts"]}
{"id": "C15", "title": "Lalr is complete", "statement": "Every sentence of the grammar is accepted by the Lalr parser, unless the run stops with Error::Conflict.", "quantifier": "all grammars, all sentences", "why_tests_cant": "infinitely many sentences; depends on lookahead propagation in an order-dependent worklist", "anchors": ["src/lalr.rs::proc_closures", "src/lalr.rs::update_closures"]}
{"id": "C16", "title": "Parse values are folds of the parse tree", "statement": "When parsing succeeds, each item left on the stack carries the value obtained by folding the user's reductors bottom-up, left to right, over a parse tree of the consumed tokens, calling the reductor at the production's declaration index with the children in order; parse returns the value of the last symbol of the start production.", "quantifier": "all grammars, reductor maps, inputs", "why_tests_cant": "arbitrary trees and arbitrary user functions", "anchors": ["src/dfa.rs::reduce", "src/parser.rs::parse", "src/grammar.rs::Rule::new"]}
{"id": "C17", "title": "parse returns the start rule's value", "statement": "parse returns what the start rule's own reductor computes from the whole input.", "quantifier": "all grammars, reductor maps, accepted inputs", "why_tests_cant": "a claim about every reductor map and input", "anchors": ["src/dfa.rs::accept", "src/parser.rs::parse", "src/dfa.rs::parse"]}
{"id": "C18", "title": "Conflict-free tables mean an unambiguous grammar", "statement": "If conflicts() is empty for a Clr or Slr table then no token sequence has two different parse trees.", "quantifier": "all grammars, all pairs of trees", "why_tests_cant": "quantifies over all pairs of trees", "anchors": ["src/tabler.rs::conflicts", "src/clr.rs", "src/slr.rs"]}
{"id": "C19", "title": "Clr parsing terminates", "statement": "For every grammar (ambiguous, cyclic or not) and every finite sequence of terminal tokens, a Clr parser's start/parse/validate returns.", "quantifier": "all grammars, all inputs", "why_tests_cant": "non-termination is not testable", "anchors": ["src/dfa.rs::trace", "src/dfa.rs::reduce", "src/clr.rs"]}
{"id": "C20", "title": "Slr parsing terminates", "statement": "For every grammar and every finite sequence of terminal tokens, an Slr parser's start/parse/validate returns.", "quantifier": "all grammars, all inputs", "why_tests_cant": "non-termination is not testable", "anchors": ["src/dfa.rs::trace", "src/dfa.rs::reduce", "src/slr.rs"]}
{"id": "C21", "title": "A generated parser never fails internally", "statement": "Running a generated Slr, Clr or Lalr table on any token sequence with a reductor for every production never panics and never reports StateNotSpecified or MissingPreviousState; UnexpectedEof arises only when a production mentions the eof symbol.", "quantifier": "all grammars, all token sequences (even with bogus token types), every number of steps", "why_tests_cant": "stack-shape invariant over arbitrarily long runs", "anchors": ["src/dfa.rs::Error", "src/dfa.rs::travel", "src/dfa.rs::reduce"]}
{"id": "C22", "title": "UnexpectedToken is never a false alarm", "statement": "If Clr or Slr reports UnexpectedToken(t, _) after consuming u, then no sentence of the grammar begins with u t (for t = end of input: u itself is not a sentence).", "quantifier": "all grammars, inputs, error positions", "why_tests_cant": "quantifies over all continuations", "anchors": ["src/dfa.rs::travel", "src/dfa.rs::Error"]}
{"id": "C23", "title": "Consumed input is a viable prefix", "statement": "At every moment of a run of a Slr, Clr or Lalr parser the tokens shifted so far are a prefix of some sentence (grammars in which every nonterminal derives some terminal string).", "quantifier": "all grammars, inputs, steps", "why_tests_cant": "every step of every run", "anchors": ["src/dfa.rs::shift", "src/dfa.rs::travel"]}
{"id": "C24", "title": "The expected-token list", "statement": "The list in UnexpectedToken(t, expected) contains every terminal that could legally come next (Clr, Slr), in ascending order without duplicates, never contains the offending symbol, and lists only tokens.", "quantifier": "all grammars, all error points", "why_tests_cant": "every error point of every run", "anchors": ["src/dfa.rs::travel", "src/dfa.rs::Error::UnexpectedToken"]}
{"id": "C25", "title": "reduce_equals preserves behaviour", "statement": "After reduce_equals the parser gives, for every input and reductor map, the same result as before, up to renumbering of states inside a reported conflict; it never panics on generated tables and never enlarges the table.", "quantifier": "all generated tables, all inputs", "why_tests_cant": "bisimulation over all runs", "anchors": ["src/tabler.rs::reduce_equals", "src/tabler.rs::reduced_actions", "src/tabler.rs::update_entry"]}
{"id": "C26", "title": "Conflicts are reported exactly", "statement": "An entry of a generated action table is a Conflict exactly when two positions of that state decide differently on that symbol, and the leaves of the Conflict are exactly those decisions.", "quantifier": "all grammars, states, symbols", "why_tests_cant": "all grammars", "anchors": ["src/slr.rs::proc_actions", "src/clr.rs::proc_actions", "src/lalr.rs::proc_actions", "src/tabler.rs::conflicts"]}
{"id": "C27", "title": "Slr-clean grammars are Clr-clean and Lalr-clean", "statement": "If the Slr table of a grammar has no conflicts then neither has its Clr nor its Lalr table.", "quantifier": "all grammars", "why_tests_cant": "relates three constructions over all grammars", "anchors": ["src/slr.rs", "src/clr.rs", "src/lalr.rs"]}
{"id": "C28", "title": "Lalr-clean grammars are Clr-clean", "statement": "If the Lalr table of a grammar has no conflicts then the grammar is LR(1): its Clr table has none either.", "quantifier": "all grammars", "why_tests_cant": "relates two constructions over all grammars", "anchors": ["src/lalr.rs", "src/clr.rs"]}
{"id": "C29", "title": "merged merges", "statement": "merged(S) has at most one position per body (rule, production, dot), and its lookahead for a body is the union of the lookaheads S gives it; nothing else changes.", "quantifier": "all sets of positions", "why_tests_cant": "all sets", "anchors": ["src/parser.rs::merged", "src/pos.rs::body_eq"]}
{"id": "C30", "title": "Dfa::parse agrees with Parser::parse", "statement": "A Dfa's parse method (reset then run) returns on every input what Parser::parse returns on it.", "quantifier": "all grammars, inputs", "why_tests_cant": "all inputs", "anchors": ["src/dfa.rs::parse", "src/dfa.rs::reset", "src/dfa.rs::new"]}
{"id": "C31", "title": "transitive computes a fixpoint", "statement": "If transitive(seed, f) returns v then f(v) = v and v is an iterate of f from seed, the first one that repeats; it returns whenever some iterate is a fixpoint.", "quantifier": "all types, functions, seeds", "why_tests_cant": "all functions", "anchors": ["src/lib.rs::transitive"]}
{"id": "C32", "title": "All three parsers agree on Slr-clean grammars", "statement": "If the Slr table of a grammar has no conflict, Slr and Clr accept exactly the same token sequences.", "quantifier": "all such grammars, all inputs", "why_tests_cant": "equality of infinite languages", "anchors": ["src/slr.rs", "src/clr.rs", "src/parser.rs::validate"]}
{"id": "C33", "title": "wop expands rule patterns exactly", "statement": "For a rule pattern built from symbols, groups with alternatives and optionals, the productions wop generates are exactly the symbol sequences obtained by choosing one alternative per group and keeping or dropping each optional, each as often as it is obtainable, in order.", "quantifier": "all patterns of any nesting depth", "why_tests_cant": "unbounded nesting", "anchors": ["wop/src/builder.rs::get_production", "wop/src/builder.rs::get_from_single_production"]}
{"id": "C34", "title": "wop aliases bind the right tokens", "statement": "In each generated production an alias bound to a present item indexes the tokens that item produced (a single token for a symbol, its slice for a group), and an alias of an absent item is None.", "quantifier": "all patterns", "why_tests_cant": "unbounded nesting and alias placement", "anchors": ["wop/src/builder.rs::push_alias", "wop/src/builder.rs::set_sub_aliases", "wop/src/builder.rs::ItemAlias::write"]}
{"id": "C35", "title": "wop reductors line up with productions", "statement": "The i-th reductor emitted for a rule is built from the i-th production emitted for it, so that the index stored by Rule::new selects the reductor generated from the same production.", "quantifier": "all grammar sources", "why_tests_cant": "all grammars", "anchors": ["wop/src/builder.rs::write_rule", "wop/src/builder.rs::write_rule_reduction", "src/grammar.rs::Rule::new"]}
{"id": "C36", "title": "wop rejects redefinitions", "statement": "process panics on a second rule with the same name or a second alias for the same token, and otherwise records exactly the declared rules, aliases and imports.", "quantifier": "all declaration sequences", "why_tests_cant": "all declaration orders", "anchors": ["wop/src/builder.rs::process", "wop/src/builder.rs::rule_decl", "wop/src/builder.rs::token_decl"]}
{"id": "C37", "title": "Clr detects errors immediately", "statement": "A Clr parser performs a reduction on lookahead t only if the consumed tokens followed by t are a prefix of some sentence (t = eof: the consumed tokens are a sentence), in grammars in which every nonterminal derives some terminal string.", "quantifier": "all grammars, inputs, steps", "why_tests_cant": "every reduction of every run", "anchors": ["src/clr.rs::closure", "src/clr.rs::decision"]}
{"id": "C38", "title": "The bundled grammars' parsers are exact", "statement": "For each grammar of grammars_tests.rs (dragon book, serokell, ucalgary [Clr], wikipedia, puncs, scanner) and for wop's own bootstrapped grammar (out.rs), the parser the code builds accepts exactly the sentences of the grammar, for inputs of any length.", "quantifier": "all token sequences", "why_tests_cant": "the tests try 5-30 literal inputs per grammar", "anchors": ["grammars_tests.rs", "wop/src/out.rs::grammar", "wop/src/lib.rs::build_parser"]}
{"id": "C39", "title": "Parsing ignores unread input", "statement": "The parser's behaviour up to the moment it shifts a token or fails depends only on the tokens up to and including the lookahead.", "quantifier": "all inputs sharing a prefix", "why_tests_cant": "all continuations", "anchors": ["src/dfa.rs::trace", "src/dfa.rs::travel"]}
{"id": "C40", "title": "Every transition is resolvable", "statement": "For each state of a generated Slr, Clr or Lalr table and each symbol after a dot in it, final_kernel and state_from_kernel succeed on the filtered positions, yield an existing state, and that state contains those positions with the dot advanced (what print_states_table unwraps).", "quantifier": "all grammars", "why_tests_cant": "all grammars", "anchors": ["src/parser.rs::state_from_kernel", "src/lalr.rs::final_kernel", "src/main.rs::print_states_table"]}
{"id": "C41", "title": "Construction and parsing are functions", "statement": "Tabler::new, the three constructions and parse have at most one result: two successful runs of the model, whatever their step budgets, give the same tables and the same parse result.", "quantifier": "all grammars, inputs, step budgets", "why_tests_cant": "quantifies over every pair of runs", "anchors": ["src/tabler.rs::new", "src/parser.rs::parse"]}
{"id": "C42", "title": "Release builds agree with debug builds", "statement": "Whenever a debug build constructs a grammar, a Tabler or a Slr/Clr/Lalr table, a release build constructs the identical one.", "quantifier": "all grammars", "why_tests_cant": "tests run in one profile at a time", "anchors": ["src/grammar.rs::new", "src/tabler.rs::new", "src/lalr.rs::update_state"]}
{"id": "C43", "title": "All three parsers are sound", "statement": "For a grammar whose start symbol occurs in no right-hand side, whatever Slr, Clr or Lalr accepts is a sentence, with or without conflicts in the table, in debug and release builds.", "quantifier": "all such grammars, all inputs, all reductor maps", "why_tests_cant": "infinitely many inputs", "anchors": ["src/dfa.rs::travel", "src/slr.rs", "src/clr.rs", "src/lalr.rs"]}
{"id": "C44", "title": "Conflict-free parsers accept exactly the sentences", "statement": "For a grammar whose start symbol has one production and occurs in no right-hand side, a Slr or Clr table without conflicts (and a Lalr table without conflicts whose transitions keep lookaheads) accepts an input if and only if it is a sentence.", "quantifier": "all such grammars, all inputs", "why_tests_cant": "infinitely many inputs, and non-sentences", "anchors": ["src/parser.rs::validate", "src/parser.rs::parse"]}
{"id": "C45", "title": "Conflict-free parsers return the value of the parse tree", "statement": "Under the conditions of C44 parse returns m if and only if m is the value of the last symbol of the start production in some bottom-up evaluation of the input.", "quantifier": "all such grammars, inputs, reductor maps", "why_tests_cant": "all reductors and inputs", "anchors": ["src/dfa.rs::reduce", "src/parser.rs::parse"]}
{"id": "C46", "title": "Conflict-free tables mean an unambiguous grammar (debug builds)", "statement": "In a debug build, if the start symbol occurs in no right-hand side and the table has no conflicts, no token sequence has two parse trees from the start symbol.", "quantifier": "all such grammars, all token sequences", "why_tests_cant": "all pairs of trees", "anchors": ["src/tabler.rs::conflicts"]}
{"id": "C47", "title": "FOLLOW is exact in debug builds", "statement": "In a debug build FOLLOW[A] is exactly the set of terminals that follow A by the textbook rules, and, if every nonterminal is reachable, exactly those that follow A in a sentential form of start eof.", "quantifier": "all grammars", "why_tests_cant": "all derivations", "anchors": ["src/tabler.rs::proc_follow"]}
{"id": "C48", "title": "Tabler::new without indirect recursion", "statement": "For a grammar without empty productions and without indirect left or right recursion (direct recursion is allowed), Tabler::new returns, in debug and release builds, and FIRST and FOLLOW are exact and hold only terminals.", "quantifier": "all such grammars", "why_tests_cant": "termination and exactness over all grammars", "anchors": ["src/tabler.rs::proc_first", "src/tabler.rs::proc_follow"]}
{"id": "C49", "title": "Empty productions are refused", "statement": "Tabler::new panics on every grammar with an empty production, in debug and release builds.", "quantifier": "all grammars with an empty production", "why_tests_cant": "all grammars", "anchors": ["src/tabler.rs::proc_first"]}
{"id": "C50", "title": "Parsing terminates without unit cycles", "statement": "If no nonterminal derives itself by unit productions, every Slr, Clr and Lalr parser returns on every finite sequence of terminal tokens, whatever conflicts its table has.", "quantifier": "all such grammars, all inputs", "why_tests_cant": "divergence cannot be tested", "anchors": ["src/dfa.rs::trace", "src/dfa.rs::travel"]}
{"id": "C51", "title": "Parsers built in debug never fail internally", "statement": "In a debug build, running a generated Slr, Clr or Lalr table on any token sequence (even tokens typed with nonterminals or unknown symbols) with a reductor for every production never panics and never reports StateNotSpecified or MissingPreviousState; UnexpectedEof arises only when a production mentions eof.", "quantifier": "all grammars, all token sequences", "why_tests_cant": "all inputs", "anchors": ["src/dfa.rs::travel", "src/dfa.rs::reduce"]}
{"id": "C52", "title": "The start rule's reductors are never consulted", "statement": "Two reductor maps that differ only at the start symbol give identical parse results on every input, including panics and divergence.", "quantifier": "all grammars, inputs, reductor maps", "why_tests_cant": "all reductor maps", "anchors": ["src/dfa.rs::travel", "src/parser.rs::parse"]}
{"id": "C53", "title": "Exactly when Dfa::parse works", "statement": "On terminal tokens Dfa::parse gives the result of Parser::parse if the run never reduces its whole stack at once, and panics (usize underflow, as reset clears the state stack) if it does; so it panics on every accepted input of a grammar whose start production begins with a nonterminal.", "quantifier": "all grammars, all inputs", "why_tests_cant": "all inputs", "anchors": ["src/dfa.rs::reset", "src/dfa.rs::parse"]}
{"id": "C54", "title": "The printed states and actions tables", "statement": "print_states_table prints exactly one row per state and symbol after a dot, naming the state the action table moves to, whose kernel is exactly the state's positions with the dot moved over the symbol; print_actions_table prints every entry of every state, terminals first, columns in order. Neither panics.", "quantifier": "all grammars", "why_tests_cant": "all grammars", "anchors": ["src/main.rs::print_states_table", "src/main.rs::print_actions_table"]}
{"id": "C55", "title": "The printed trace", "statement": "trace ends like start, shows exactly the unfinished configurations the run goes through, each once, and the stack it prints starts at state 0 and follows each symbol by the state the table moves to.", "quantifier": "all grammars, all inputs", "why_tests_cant": "all inputs", "anchors": ["src/dfa.rs::trace", "src/dfa.rs::stack_fmt", "src/main.rs::print_proc_dfa"]}
{"id": "C56", "title": "The stack invariant", "statement": "At every moment of a run on terminal tokens the stack of states is a path of the table from state 0, its top is d_top, and the items are the values of the consumed tokens.", "quantifier": "all grammars, inputs, moments", "why_tests_cant": "all runs", "anchors": ["src/dfa.rs::shift", "src/dfa.rs::reduce"]}
{"id": "C57", "title": "Clr is sound with a recursive start symbol", "statement": "If eof occurs in no production, whatever a Clr parser accepts is a sentence, even if the start symbol occurs in right-hand sides.", "quantifier": "all such grammars, all inputs", "why_tests_cant": "infinitely many inputs", "anchors": ["src/clr.rs"]}
{"id": "C58", "title": "UnexpectedToken is never a false alarm (debug builds)", "statement": "In a debug build, if Slr or Clr reports UnexpectedToken after consuming u before token t, no sentence begins with u t (at end of input: u is no sentence).", "quantifier": "all grammars, all inputs", "why_tests_cant": "all continuations", "anchors": ["src/dfa.rs::travel"]}
{"id": "C59", "title": "Conflict-free tables of reduced grammars terminate", "statement": "If every nonterminal is reachable and productive, the start symbol has one production and occurs in no right-hand side, and the Slr or Clr table (or a lookahead-keeping Lalr table) has no conflicts, then no nonterminal derives itself by unit productions and parsing terminates on every sequence of terminal tokens.", "quantifier": "all such grammars, all inputs", "why_tests_cant": "divergence cannot be tested", "anchors": ["src/dfa.rs::trace"]}
{"id": "C60", "title": "Slr-clean grammars are Clr-clean and Lalr-clean in debug builds", "statement": "In a debug build, if the Slr table of a grammar has no conflicts then neither has its Clr nor its Lalr table.", "quantifier": "all grammars", "why_tests_cant": "all grammars", "anchors": ["src/slr.rs", "src/clr.rs", "src/lalr.rs"]}
{"id": "C61", "title": "The printed tokens table", "statement": "print_tokens_table shows, for each nonterminal, its own FIRST and FOLLOW sets.", "quantifier": "all grammars", "why_tests_cant": "all grammars", "anchors": ["src/main.rs::print_tokens_table"]}
{"id": "C62", "title": "wop accepts exactly the documented syntax", "statement": "from_str reports a syntax error exactly on the token sequences that are not grammar files in wop's concrete syntax, and the declarations a file consists of are determined by its tokens (the syntax is unambiguous).", "quantifier": "all wop source texts", "why_tests_cant": "all token sequences", "anchors": ["wop/src/builder.rs::from_str", "wop/src/out.rs", "wop/src/wop.grammar"]}
{"id": "C63", "title": "from_str is total", "statement": "On every source text from_str returns a builder, returns a syntax error or fails an assertion (redefinition, misplaced code block); when it returns a builder, dump_reductor's per-production work succeeds; no recorded span leaves the source.", "quantifier": "all wop source texts", "why_tests_cant": "all texts", "anchors": ["wop/src/builder.rs::from_str", "wop/src/builder.rs::process", "wop/src/lib.rs"]}
{"id": "C64", "title": "wop's lexer finds the tokens", "statement": "The token sequence wop works on is the longest-match, highest-priority tokenization of the source with the skipped entries dropped; it lies in order inside the source and is unique unless it contains an error token.", "quantifier": "all wop source texts", "why_tests_cant": "all texts", "anchors": ["wop/src/lib.rs::Sym", "wop/src/lib.rs::lexer"]}
{"id": "C65", "title": "A code block ends at the first }%", "statement": "The code block token starting at -> reaches up to the first }% behind it.", "quantifier": "all wop source texts", "why_tests_cant": "unbounded texts", "anchors": ["wop/src/lib.rs::Sym"]}
{"id": "C66", "title": "Emitted let statements are well typed", "statement": "Every let statement wop emits for an alias type checks.", "quantifier": "all wop source texts", "why_tests_cant": "all patterns", "anchors": ["wop/src/builder.rs::ItemAlias::write"]}
{"id": "C67", "title": "Code blocks see one type per alias", "statement": "In all productions expanded from one alternative, which share its code block, an alias has the same type.", "quantifier": "all wop source texts", "why_tests_cant": "all patterns", "anchors": ["wop/src/builder.rs::ItemAlias::write", "wop/src/builder.rs::push_alias"]}
{"id": "C68", "title": "Aliases without & borrow", "statement": "An alias written without & is bound by reference and one written with & by clone (the flag changes what is emitted).", "quantifier": "all wop source texts", "why_tests_cant": "all patterns", "anchors": ["wop/src/builder.rs::push_alias", "wop/src/builder.rs::ItemAlias::write"]}
{"id": "C69", "title": "Emitted reductors never panic on their own", "statement": "A reductor emitted by wop, called with as many tokens as its production has symbols, does not index out of range.", "quantifier": "all wop source texts", "why_tests_cant": "all patterns and token values", "anchors": ["wop/src/builder.rs::write_reductor", "wop/src/builder.rs::ItemAlias::write"]}
{"id": "C70", "title": "Reductor function names", "statement": "The functions emitted for different productions have different names, and the names are Rust identifiers.", "quantifier": "all wop source texts", "why_tests_cant": "all rule names and indices", "anchors": ["wop/src/builder.rs::write_reductor"]}
{"id": "C71", "title": "An alias applies to the whole file", "statement": "A symbol for which an alias is declared anywhere in the file is replaced by it in every production.", "quantifier": "all wop source texts", "why_tests_cant": "all declaration orders", "anchors": ["wop/src/builder.rs::token_decl", "wop/src/builder.rs::get_production"]}
{"id": "C72", "title": "Rule references stay rule references", "statement": "A symbol of a pattern that has the name of a rule refers to that rule in the emitted production.", "quantifier": "all wop source texts", "why_tests_cant": "all declaration sequences", "anchors": ["wop/src/builder.rs::token_decl", "wop/src/builder.rs::dump_grammar"]}
{"id": "C73", "title": "What wop's main does", "statement": "On any source main writes the code of the builder from_str reads and returns Ok, or fails an assertion on an invalid file, or meets a syntax error; then it panics or writes the code of a leading part of the file and returns the error.", "quantifier": "all wop source texts", "why_tests_cant": "all texts", "anchors": ["wop/src/main.rs::main"]}
{"id": "C74", "title": "Nothing is written after a syntax error", "statement": "If the source has a syntax error main returns it and leaves out.rs alone.", "quantifier": "all wop source texts", "why_tests_cant": "all texts", "anchors": ["wop/src/main.rs::main"]}
{"id": "C75", "title": "dump_reductor never panics", "statement": "As documented, dump_reductor never panics on a builder returned by from_str.", "quantifier": "all wop source texts", "why_tests_cant": "all texts", "anchors": ["wop/src/builder.rs::dump_reductor"]}
{"id": "C76", "title": "The grammar text reads back", "statement": "Read as Rust code, the text dump_grammar writes inserts exactly the builder's rules with their productions in order.", "quantifier": "all wop source texts", "why_tests_cant": "all builders", "anchors": ["wop/src/builder.rs::dump_grammar", "wop/src/builder.rs::write_rule"]}
{"id": "C77", "title": "Exactly the aliases of an alternative are bound", "statement": "In every production expanded from an alternative, the emitted reductor binds each alias occurring anywhere in the alternative, so that the shared code block can use it, and no other name.", "quantifier": "all wop source texts", "why_tests_cant": "all patterns", "anchors": ["wop/src/builder.rs::single", "wop/src/builder.rs::set_sub_aliases", "wop/src/builder.rs::ItemAlias::write"]}
{"id": "C78", "title": "The text of the let statements does what it should", "statement": "The statements emitted for a production, read as Rust and executed on as many tokens as the production has symbols, bind every alias of the alternative immutably to the tokens it stands for (Some or None for optional ones) and bind nothing else; for patterns without the constructs C34 and C66 fail on.", "quantifier": "all wop source texts", "why_tests_cant": "all patterns, values and token counts", "anchors": ["wop/src/builder.rs::ItemAlias::write"]}
{"id": "C79", "title": "The reductor text reads back", "statement": "Read as a Rust block, the text dump_reductor writes inserts for each rule one list with a function per production in order; each is defined once, takes the tokens, binds the aliases, ends in the alternative's code block and spans from the first to the last token.", "quantifier": "all wop source texts", "why_tests_cant": "all files with clean names, types and balanced code", "anchors": ["wop/src/builder.rs::dump_reductor", "wop/src/builder.rs::write_rule_reduction"]}
{"id": "C80", "title": "out.rs is the generated parser", "statement": "For a valid source main writes a file which read as Rust holds a function returning the grammar from Sym::EntryPoint to Sym::Eof with the productions of the source, and a function returning the reductors of exactly these productions.", "quantifier": "all wop source texts", "why_tests_cant": "all files with clean names, types and balanced code", "anchors": ["wop/src/main.rs::main", "wop/src/builder.rs::dump_grammar", "wop/src/builder.rs::dump_reductor"]}
{"id": "C81", "title": "The expected list of a Clr parser is exact", "statement": "The terminals listed in an UnexpectedToken of a Clr parser are exactly the symbols that could have continued the consumed input; each listed nonterminal could have come next.", "quantifier": "all grammars without unproductive symbols, all inputs", "why_tests_cant": "unbounded grammars and inputs", "anchors": ["src/dfa.rs::travel", "src/clr.rs::decision"]}
{"id": "C82", "title": "reduce_equals leaves no equal rows", "statement": "After reduce_equals no two rows of the table are equal.", "quantifier": "all generated tables", "why_tests_cant": "merging rows makes other rows equal only in some tables", "anchors": ["src/tabler.rs::reduce_equals"]}
{"id": "C83", "title": "reduce_equals keeps the table consistent", "statement": "After reduce_equals the kernels still name states that have a row.", "quantifier": "all generated tables", "why_tests_cant": "needs tables with equal rows", "anchors": ["src/tabler.rs::reduce_equals"]}
{"id": "C84", "title": "Values do not influence parsing", "statement": "Whether parse succeeds, fails (and how), panics or runs on depends on the types of the tokens and on which reductors exist, not on token values or on what reductors compute.", "quantifier": "all tables, inputs, value types and reductors", "why_tests_cant": "all functions", "anchors": ["src/dfa.rs::travel", "src/dfa.rs::reduce", "src/parser.rs::parse"]}
{"id": "C85", "title": "What Parser::cloned computes", "statement": "Parsing with the reductors of Parser::cloned returns the value of the last token if the start production ends in a terminal, else the first symbol of the production used for its last symbol.", "quantifier": "all grammars, inputs and reductors", "why_tests_cant": "unbounded grammars and inputs", "anchors": ["src/parser.rs::cloned", "src/dfa.rs::transparent"]}
{"id": "C86", "title": "Calling start again", "statement": "A second call of Dfa::start reports what the first did and changes nothing.", "quantifier": "all grammars, inputs and reductors", "why_tests_cant": "all runs of all tables", "anchors": ["src/dfa.rs::start", "src/dfa.rs::accept"]}
{"id": "C87", "title": "The columns of the table", "statement": "Gotos stand exactly in the columns of nonterminals; shifts, reductions, acceptance and conflicts in those of terminals.", "quantifier": "all grammars", "why_tests_cant": "unbounded tables", "anchors": ["src/slr.rs::decision", "src/clr.rs::decision", "src/lalr.rs::decision"]}
{"id": "C88", "title": "Clr accepts exactly the LR(1) grammars", "statement": "For grammars without unproductive symbols, the table of Clr has no conflict exactly if the grammar is LR(1) in the sense of Knuth (the handle of a right sentential form is determined by what precedes its end and one more symbol).", "quantifier": "all grammars without unproductive symbols", "why_tests_cant": "LR(1) speaks about all derivations", "anchors": ["src/clr.rs::proc_closures", "src/clr.rs::decision", "src/tabler.rs::conflicts"]}
{"id": "C89", "title": "Slr accepts exactly the SLR(1) grammars", "statement": "For grammars without unproductive symbols, the table of Slr has no conflict exactly if after no viable prefix two completed productions, or a completed one and a readable symbol, share a FOLLOW symbol.", "quantifier": "all grammars without unproductive symbols", "why_tests_cant": "SLR(1) speaks about all derivations", "anchors": ["src/slr.rs::proc_closures", "src/slr.rs::decision", "src/tabler.rs::conflicts"]}
{"id": "C90", "title": "Lalr accepts exactly the LALR(1) grammars", "statement": "For grammars without unproductive symbols, the table of Lalr has no conflict exactly if the grammar is LALR(1): LR(1) lookaheads merged over the prefixes that lead to the same LR(0) state decide.", "quantifier": "all grammars without unproductive symbols", "why_tests_cant": "LALR(1) speaks about all derivations", "anchors": ["src/lalr.rs::update_closures", "src/lalr.rs::proc_closures", "src/lalr.rs::decision"]}
{"id": "C91", "title": "When Lalr builds Clr's table", "statement": "Lalr::new builds the same table as Clr::new, entry for entry, exactly if no two states of Clr have the same items up to lookaheads.", "quantifier": "all grammars", "why_tests_cant": "all grammars; needs the two constructions followed step by step", "anchors": ["src/lalr.rs::proc_closures", "src/lalr.rs::update_closures", "src/clr.rs::proc_closures"]}
{"id": "C92", "title": "Lalr and Slr have the same automaton", "statement": "The states of Lalr and those of Slr correspond one to one, with the same items up to lookaheads and the same transitions.", "quantifier": "all grammars", "why_tests_cant": "all grammars", "anchors": ["src/lalr.rs::proc_closures", "src/slr.rs::proc_closures", "src/grammar.rs::basis"]}
{"id": "C93", "title": "Names and order do not matter for Slr and Clr", "statement": "Renaming the symbols, changing the order the symbols have and the order of alternatives changes neither whether the table of Slr or Clr has conflicts nor, without conflicts, which inputs are accepted and with which value.", "quantifier": "all grammars without unproductive symbols, all renamings, inputs and reductors", "why_tests_cant": "all renamings and orders", "anchors": ["src/slr.rs::proc_closures", "src/clr.rs::proc_closures", "src/grammar.rs::Grammar::new"]}
{"id": "C94", "title": "Names and order do not matter for Lalr", "statement": "The same for Lalr.", "quantifier": "all grammars without unproductive symbols, all renamings, inputs and reductors", "why_tests_cant": "all renamings and orders", "anchors": ["src/lalr.rs::proc_closures", "src/lalr.rs::update_closures"]}
{"id": "C95", "title": "An observed run is a parse by hand", "statement": "An observer that only looks does not change what trace does compared with start; what it sees is a shift-reduce parse of the input, and the observations of a successful run read backwards are a rightmost derivation.", "quantifier": "all grammars, inputs and reductors", "why_tests_cant": "unbounded runs of all tables", "anchors": ["src/dfa.rs::trace", "src/dfa.rs::start"]}
{"id": "C96", "title": "Parsing takes linear time", "statement": "A parse that returns takes at most (2 * rules + 1) * tokens + 1 rounds; every parse of a Clr parser, or for rules without unit cycles, returns.", "quantifier": "all grammars, inputs and reductors", "why_tests_cant": "a bound for all tables and inputs", "anchors": ["src/dfa.rs::trace", "src/dfa.rs::travel", "src/dfa.rs::reduce"]}
{"id": "C97", "title": "The printed run explains itself", "statement": "The table of print_proc_dfa numbers its steps, starts with the input, shows the table's action in every row, carrying out the action gives the next row, and the outcome is the one that goes with the last row.", "quantifier": "all grammars, inputs and reductors", "why_tests_cant": "all runs of all tables", "anchors": ["src/main.rs::print_proc_dfa", "src/dfa.rs::stack_fmt"]}
{"id": "C98", "title": "What the lrp binary does with a line", "statement": "It gets through its setup and prints the FIRST and FOLLOW sets, every move between states once and every entry of its table in its row and column; it prints ok for a line exactly if without surrounding white space it is brackets nested in brackets, reports an unexpected token for other lines of characters it knows, and panics for the rest.", "quantifier": "all lines, both build modes", "why_tests_cant": "unbounded lines", "anchors": ["src/main.rs::main"]}
{"id": "C99", "title": "Slicing the source never panics", "statement": "On a source in UTF-8 wop's main slices the source only between characters and within it: printing the tokens, printing the tree and building never panic for a slice. A slice by itself succeeds exactly if it takes whole characters from between whole characters, and gives these.", "quantifier": "all wop source texts", "why_tests_cant": "all texts", "anchors": ["wop/src/main.rs::main", "wop/src/main.rs::print_nested", "src/lib.rs::Span::from_source"]}
{"id": "C100", "title": "Nodes lie where their tokens are", "statement": "The trees main leaves on the parser's stack are made of consecutive tokens; every node's span reaches from the start of its first token to the end of its last, its subtrees lie inside one behind the other; after success one tree covers all tokens.", "quantifier": "all wop source texts", "why_tests_cant": "all texts", "anchors": ["wop/src/out.rs::reduct_map", "src/lib.rs::Span::new"]}
{"id": "C101", "title": "print_nested shows the whole tree", "statement": "print_nested prints for every node of the tree a line with its symbol and its source text, each node before what is inside it. The lines about a node and what is in it stand together, and those about the node itself name what it refers to: a rule's name and type, the parts of an alias, an import's path, and of an item whether it is optional, whether it is cloned, and its alias or (null).", "quantifier": "all trees and sources", "why_tests_cant": "unbounded trees", "anchors": ["wop/src/main.rs::print_nested"]}
{"id": "C102", "title": "Different errors give different messages", "statement": "The Display text of an error determines the error, and no error reads like the ok of a successful run, given symbols whose texts can be told apart (as those of &str and of wop's symbols can).", "quantifier": "all errors, all symbol types", "why_tests_cant": "all symbols and lists, including texts with quotes, commas and escapes", "anchors": ["src/dfa.rs::Error::fmt", "src/main.rs::print_proc_dfa"]}
{"id": "C103", "title": "Printed states can be told apart", "statement": "The text of a position or state determines it, within one table and between tables of one grammar.", "quantifier": "all grammars", "why_tests_cant": "all grammars and symbol texts", "anchors": ["src/pos.rs::Position::fmt", "src/main.rs::print_states_table"]}
{"id": "C104", "title": "The printed run can be read back", "statement": "What print_proc_dfa prints determines the steps (stack, buffer, address, action), the outcome, the input and the end marker.", "quantifier": "all grammars, inputs and reductors", "why_tests_cant": "all runs of all tables", "anchors": ["src/main.rs::print_proc_dfa", "src/dfa.rs::stack_fmt", "src/dfa.rs::Error::fmt"]}
{"id": "C105", "title": "Actions are printed below their symbols", "statement": "In the table of print_actions_table the action of a state for a symbol stands in the column titled with the symbol; the text determines the table.", "quantifier": "all grammars", "why_tests_cant": "the column depends on the number of terminals", "anchors": ["src/main.rs::print_actions_table"]}
{"id": "C106", "title": "No state twice, none out of reach", "statement": "All states of a table differ, each is reached from the first by moves of the table, and kernels numbers them one to one; for Lalr they differ even without lookaheads.", "quantifier": "all grammars", "why_tests_cant": "unbounded tables", "anchors": ["src/slr.rs::proc_closures", "src/clr.rs::proc_closures", "src/lalr.rs::proc_closures", "src/lalr.rs::update_closures"]}
{"id": "C107", "title": "A generated parser computes what the file says", "statement": "A conflict-free parser made from the grammar wop writes for a file, run with the reductors wop writes for it, accepts exactly the inputs the file gives a meaning, returns the value the code blocks make of them and never panics; without unit cycles it rejects all others.", "quantifier": "all grammar files whose aliases wop gets right, all code blocks, all inputs, all methods", "why_tests_cant": "files, code blocks and inputs are unbounded", "anchors": ["wop/src/builder.rs::dump_grammar", "wop/src/builder.rs::dump_reductor", "wop/src/builder.rs::get_from_single_production", "src/parser.rs::parse"]}
{"id": "C108", "title": "The example of wop's README", "statement": "wop accepts the example of its README, and the generated parser recognises sums of two numbers within brackets.", "quantifier": "the example; all inputs of the generated parser", "why_tests_cant": "the language of the generated grammar is infinite", "anchors": ["wop/README.md", "wop/src/builder.rs::from_str", "wop/src/builder.rs::token_decl"]}
{"id": "C110", "title": "Comments and literals end where they should", "statement": "A block comment ends at the first */ behind its start, a line comment with its line, a string literal at the first quote not escaped.", "quantifier": "all wop source texts", "why_tests_cant": "all texts", "anchors": ["wop/src/lib.rs::Sym"]}
{"id": "C111", "title": "The order of a hash set does not show", "statement": "For one grammar file wop writes the same grammar and reductors in whatever order its hash sets are visited; at least, the parser generated is the same.", "quantifier": "all grammar files, all orders", "why_tests_cant": "the order differs from run to run, files are unbounded", "anchors": ["wop/src/builder.rs::set_sub_aliases", "wop/src/builder.rs::dump_reductor"]}
{"id": "C109", "title": "wop is written in itself", "statement": "wop reads its own grammar file, and the grammar and reductors it writes for it make the same parser and front end as the out.rs it is built with, on every input.", "quantifier": "all inputs, all orders of hash sets, all choices of logos", "why_tests_cant": "all inputs of the regenerated parser", "anchors": ["wop/src/wop.grammar", "wop/src/out.rs::grammar", "wop/src/out.rs::reduct_map", "wop/src/lib.rs::build_parser", "wop/src/builder.rs::from_str"]}
{"id": "C112", "title": "Exactly when Tabler::new returns", "statement": "For a grammar without empty productions, whether Tabler::new returns, panics at its debug assertion or never returns is decided by what repeated doubling makes of the relations 'begins a right-hand side of' and 'ends one of': a debug build returns just when both die out, a release build just when they stop changing; no other panic is possible.", "quantifier": "all grammars without empty productions, both build modes", "why_tests_cant": "all grammars; non-termination cannot be observed by a test", "anchors": ["src/tabler.rs::new", "src/tabler.rs::proc_first", "src/tabler.rs::proc_follow", "src/lib.rs::transitive"]}
{"id": "C113", "title": "Indirect recursion and powers of two", "statement": "If every nonterminal has at most one other nonterminal at the start of its right-hand sides and at most one at their end, Tabler::new returns just when every cycle among them has a length that is a power of two, and runs forever otherwise.", "quantifier": "all such grammars, both build modes", "why_tests_cant": "cycles of any length; non-termination", "anchors": ["src/tabler.rs::first_step", "src/tabler.rs::follow_step", "src/lib.rs::transitive"]}
{"id": "C114", "title": "Which nonterminals stay in the tables", "statement": "A nonterminal is in a FIRST (FOLLOW) set of the table made exactly if the pointer to it survives the doubling forever.", "quantifier": "all grammars without empty productions for which Tabler::new returns, both build modes", "why_tests_cant": "all grammars", "anchors": ["src/tabler.rs::proc_first", "src/tabler.rs::proc_follow"]}
{"id": "C115", "title": "out.rs is up to date", "statement": "The out.rs wop is built with is what wop writes for its grammar file, token for token, in some order of imports and rules and but for what rustfmt does to commas and layout.", "quantifier": "the two files, both build modes, orders of the hash maps chosen", "why_tests_cant": "the order of a hash map differs from run to run, and building wop needs the very file", "anchors": ["wop/src/out.rs", "wop/src/wop.grammar", "wop/src/builder.rs::dump", "wop/src/builder.rs::dump_reductor"]}
{"id": "C116", "title": "FIRST and FOLLOW take logarithmically many rounds", "statement": "For a grammar without empty productions and without cycles of left or right corners the loops of proc_first and proc_follow both end by round r+1 (r at least 1) exactly if no chain of left or of right corners has 2^r steps; so 2^r rules never take more.", "quantifier": "all grammars without empty productions and cycles of corners, both build modes", "why_tests_cant": "all grammars", "anchors": ["src/tabler.rs::proc_first", "src/tabler.rs::proc_follow", "src/lib.rs::transitive"]}
{"id": "C117", "title": "Lalr's automaton is the quotient of Slr's and Clr's", "statement": "There is a map from the states of Slr (or Clr) onto those of Lalr that keeps the first state and the items up to lookaheads, and under which the moves of one are exactly the moves of the other; so Lalr never has more states, and as many exactly if no two states of the other have the same items.", "quantifier": "all grammars", "why_tests_cant": "all grammars", "anchors": ["src/lalr.rs::proc_closures", "src/lalr.rs::update_closures", "src/clr.rs::proc_closures", "src/slr.rs::proc_closures"]}
{"id": "C118", "title": "An accepted input has one parse tree", "statement": "Whatever conflicts the table has, an input that is accepted has exactly one parse tree; a sentence with two parse trees always ends in Error::Conflict.", "quantifier": "all grammars with a fresh start symbol and a single start production, Slr, Clr and those Lalr tables that carry their lookaheads, all inputs, all reductors", "why_tests_cant": "all grammars and inputs", "anchors": ["src/dfa.rs::travel", "src/dfa.rs::start", "src/tabler.rs::conflicts", "src/slr.rs::decision", "src/clr.rs::decision"]}
{"id": "C119", "title": "Clr's conflicts are real", "statement": "A driver made by Clr stops with Error::Conflict in exactly those configurations in which the symbols on its stack and the next symbol leave the grammar two possible steps (two right sentential forms with that prefix and that next symbol and different handles); what it has read then begins a sentence that goes on with the next token.", "quantifier": "all grammars all of whose symbols derive something, Clr, all inputs made of terminals, all reductors", "why_tests_cant": "all grammars and inputs", "anchors": ["src/clr.rs::decision", "src/clr.rs::closure", "src/clr.rs::proc_closures", "src/dfa.rs::travel"]}
{"id": "C120", "title": "States hold the valid items", "statement": "Whatever way a state is reached, it holds exactly the items valid after the symbols on the way (LR(0) items for all three methods, with their lookaheads for Clr); the ways through the table are exactly the viable prefixes.", "quantifier": "all grammars all of whose symbols derive something", "why_tests_cant": "all grammars and ways", "anchors": ["src/slr.rs::closure", "src/slr.rs::proc_closures", "src/clr.rs::closure", "src/clr.rs::proc_closures", "src/lalr.rs::proc_closures"]}
{"id": "C121", "title": "Drivers are the textbook's machines", "statement": "In every configuration of a run the driver of a Slr (Clr; Lalr, if its lookaheads are exact in the sense of C123) parser does what the SLR(1) (LR(1); LALR(1)) machine of the grammar calls for given the symbols on the stack and the next symbol, all defined by rightmost derivations: Conflict if two steps are called for, UnexpectedToken if none (the expected symbols being those for which a step is called for), otherwise the one step, with the reductor applied to the items it takes off.", "quantifier": "all grammars all of whose symbols derive something, Slr, Clr and those Lalr tables, all inputs made of terminals, all reductors", "why_tests_cant": "all grammars and inputs", "anchors": ["src/dfa.rs::travel", "src/slr.rs::decision", "src/clr.rs::decision", "src/slr.rs::proc_actions", "src/clr.rs::proc_actions"]}
{"id": "C122", "title": "Clr does not see rules out of reach", "statement": "Two grammars that give the same rules to every symbol that occurs in what the start symbol derives: Clr's tables both have conflicts or neither has, and the parsers answer every input alike, with the same value or the same error and expected symbols. (Slr's parsers need not: a rule out of reach can put a symbol into a FOLLOW set and make a conflict.)", "quantifier": "all such pairs of grammars all of whose symbols derive something, Clr, all inputs made of terminals of both, all reductors", "why_tests_cant": "all pairs of grammars and all inputs", "anchors": ["src/clr.rs::closure", "src/clr.rs::proc_actions", "src/dfa.rs::start"]}
{"id": "C123", "title": "When Lalr's lookaheads are the LALR(1) ones", "statement": "The lookaheads of Lalr's items are exactly the LALR(1) ones (LR(1) lookaheads merged over the prefixes that lead to the same LR(0) state) if and only if no transition of its table loses a lookahead and every lookahead has been handed out from item to item; then it reports no conflict exactly for the LALR(1) grammars. It is so for every grammar in the repository.", "quantifier": "all grammars all of whose symbols derive something", "why_tests_cant": "LALR(1) speaks about all derivations", "anchors": ["src/lalr.rs::update_closures", "src/lalr.rs::proc_closures", "src/lalr.rs::closure"]}
{"id": "C124", "title": "Three parsers of one grammar on one input", "statement": "Whatever conflicts the tables have: unless the parser of the weaker method (Slr, then Lalr with exact lookaheads, then Clr) stops with Error::Conflict, the parser of the stronger one gives the same answer - the same value, or the same error in front of the same token, only the list of expected symbols may differ; and unless the stronger one reports an unexpected token, the weaker one stops with a conflict or gives the same answer.", "quantifier": "all grammars all of whose symbols derive something, with a start symbol on no right-hand side; all pairs of methods (Lalr when its lookaheads are exact, C123), all inputs made of terminals, all reductors", "why_tests_cant": "all grammars and inputs", "anchors": ["src/dfa.rs::start", "src/dfa.rs::travel", "src/slr.rs::decision", "src/clr.rs::decision", "src/lalr.rs::decision"]}
{"id": "C125", "title": "A run that does not return turns in a circle", "statement": "A parse never returns exactly if it comes back to a stack it has had before, with the same tokens still to come; then it does so within the number of rounds a returning parse may take (C96), after at most as many rounds as there are rules, and what goes round is the symbol on top of the stack, which derives itself by unit productions: the table reduces it by itself to others and back. If no cells of the table do that (and already if no nonterminal derives itself by unit productions, C50), every parse returns. So a parse that has not returned after (2 * rules + 1) * tokens + 1 rounds never will.", "quantifier": "all grammars and methods, all inputs made of terminals, all complete reductor maps", "why_tests_cant": "no run shows non-termination", "anchors": ["src/dfa.rs::start", "src/dfa.rs::travel", "src/dfa.rs::reduce"]}
{"id": "C126", "title": "How high the stack gets", "statement": "If the rules recur at the left end of right-hand sides only, the driver's stack never holds more than rules * (longest right-hand side - 1) + 1 symbols, however long the input; it never holds more symbols than tokens read. If any other recursion is within reach of the start symbol and the table has no conflicts, the stack gets as high as one likes while sentences are parsed, and every prefix a way down from the start symbol leaves behind is a stack of such a parse.", "quantifier": "all grammars and methods, all inputs made of terminals (the second half: Slr, Clr and those Lalr tables that carry their lookaheads, without conflicts, all symbols deriving something)", "why_tests_cant": "all inputs, of any length", "anchors": ["src/dfa.rs::travel", "src/dfa.rs::shift", "src/dfa.rs::reduce"]}
{"id": "C127", "title": "Every cell of the table is used", "statement": "In a table without conflicts over rules all of whose symbols derive something, every state is on top of the stack, every shift cell is consulted and every goto cell followed during the parse of some sentence; with Clr, and with Lalr where no lookahead is made up, so is every reduce and accept cell. If any of these cells is left out of the table, some sentence that was accepted is refused with an unexpected token at exactly that symbol. (Slr writes reduce cells no sentence uses; an example shows one.)", "quantifier": "all grammars, all states and cells (Slr, Clr and those Lalr tables that carry their lookaheads)", "why_tests_cant": "the sentence that needs a cell has to be found for every cell of every table", "anchors": ["src/lalr.rs::proc_actions", "src/slr.rs::proc_actions", "src/dfa.rs::travel", "src/dfa.rs::reduce"]}
{"id": "C128", "title": "How much work a table is", "statement": "A closure settles after at most as many rounds as there are nonterminals with Slr, twice as many with Clr and Lalr, whatever items it starts from. Slr and Clr build the table in exactly one turn for each state of the result and one more. Lalr's table (and Slr's, if the start symbol is on no right-hand side) has at most two to the power of the number of places within right-hand sides of states - and exponentially many it can have: there are rules with (n+1)^2 + n + 2 productions of at most two symbols for which every method makes a table without conflicts that has at least 2^n states.", "quantifier": "all grammars, all seeds of closures, all n", "why_tests_cant": "bounds on the number of steps for all grammars", "anchors": ["src/lib.rs::transitive", "src/slr.rs::prop_closure", "src/clr.rs::prop_closure", "src/slr.rs::proc_closures", "src/clr.rs::proc_closures", "src/lalr.rs::proc_closures", "src/slr.rs::closure", "src/clr.rs::closure"]}
{"id": "C129", "title": "Printed states table, tokens table and stack", "statement": "The first row of the printed states table gives the number of the last state and state 0; the other rows have different names and give exactly the moves of the table, each with its kernel and the state moved to, and every state is shown. Two tables of a grammar printed alike have as many states and the same moves, and the same states if no alternative is written twice. Where every nonterminal is used by another one, the printed tokens table gives each nonterminal's name, FIRST and FOLLOW set, in order. Dfa::stack_debug lists states and tokens in turn from the bottom, and its text tells states, symbols and values.", "quantifier": "all grammars and methods, all texts of symbols (and values) that can be told apart, all configurations of all runs", "why_tests_cant": "all tables and all texts of symbols", "anchors": ["src/main.rs::print_states_table", "src/main.rs::print_tokens_table", "src/dfa.rs::stack_debug"]}
{"id": "C130", "title": "Clr's states and the canonical LR(1) collection", "statement": "Prefixes after which the same LR(1) items are valid lead to the same state of Clr's table - false, since positions carry sets of lookaheads and the same lookaheads can come in one set or in several; but they lead to states with the same LR(1) items (and only they do), such states have the same reduce, accept and conflict entries and their moves lead to such states again. If whatever comes right after a nonterminal begins with one terminal only, the states are exactly those of the canonical collection; there are never fewer. Clr makes at most 2^(places within right-hand sides * (symbols + 1)) states, Slr at most 2^(2 * places).", "quantifier": "all grammars all of whose symbols derive something (counts: all grammars), all pairs of prefixes", "why_tests_cant": "all prefixes of all grammars", "anchors": ["src/clr.rs::closure", "src/clr.rs::proc_closures", "src/clr.rs::proc_actions", "src/slr.rs::proc_closures"]}
{"id": "C131", "title": "Renamed parsers give the renamed answers", "statement": "Injectively renaming the symbols of a grammar and permuting the alternatives of each rule (and the reductors with them) changes no answer of its parser beyond the names: on every input, of the language or not, and also if the tables have conflicts, the one parser returns if and only if the other does, and with the same value, or the same unexpected token and the same expected symbols under the new names, or an unexpected end, an incomplete run or a conflict in both. One table has conflicts exactly if the other has. (Lalr: if its lookaheads are exact in the sense of C123; otherwise false, C94.)", "quantifier": "all grammars all of whose symbols derive something, all renamings, Slr, Clr and Lalr with exact lookaheads, all inputs made of terminals, all reductors", "why_tests_cant": "all grammars, renamings and inputs", "anchors": ["src/dfa.rs::start", "src/dfa.rs::travel", "src/slr.rs::proc_actions", "src/clr.rs::proc_actions", "src/lalr.rs::proc_closures"]}
{"id": "C132", "title": "When Lalr's parser accepts every sentence", "statement": "Lalr's parser can refuse sentences of the grammar although it reports no conflict (C15). Exactly when: the completed items of its table have the lookaheads the LALR(1) construction hands to them if and only if the grammar is LR(1) and the parser accepts all its sentences (and if and only if they have, after every sequence of symbols, those that can come next there). Other items may have lost lookaheads and any item may have too many. Then Clr reports no conflict either, and both parsers accept the same inputs, with the same values.", "quantifier": "all grammars all of whose symbols derive something and whose start symbol is on no right-hand side, for which Lalr reports no conflict; all inputs, all reductors", "why_tests_cant": "all grammars and all their sentences", "anchors": ["src/lalr.rs::proc_closures", "src/lalr.rs::update_closures", "src/lalr.rs::proc_actions", "src/dfa.rs::travel", "src/parser.rs::validate"]}
{"id": "C133", "title": "How much work Lalr's construction is", "statement": "update_closures never goes back to its first symbol (the continue of its inner loop is never taken), and its calls nest at most as deeply as the longest right-hand side is long, whatever the number of states and lookaheads. The loop over the states turns at least once for each state of the result and once more, and at most 2 * places in right-hand sides * symbols + 3 times for each state. Tables come out the same within these limits.", "quantifier": "all grammars for which Tabler::new returns, both build modes", "why_tests_cant": "bounds on recursion and loops for all grammars; an unreachable branch", "anchors": ["src/lalr.rs::update_closures", "src/lalr.rs::update_state", "src/lalr.rs::proc_closures", "src/lib.rs::transitive"]}
{"id": "C134", "title": "What is in a table at all", "statement": "A table's states hold exactly the alternatives met on the way from the first alternative of the start symbol (that one, and all alternatives of the nonterminals that occur in one that is met), each with the dot at every place; its rows have moves over exactly the symbols that occur in those. No other rule leaves a trace in states or moves: not the start symbol's other alternatives in a release build, nor rules out of reach. If every nonterminal derives a sentence, the table reduces somewhere by every alternative that is met (the start symbol's aside) and by no other: none is lost for want of a lookahead. Clr reduces by one, and accepts, in exactly the columns of the terminals that follow it where it is met, counting each alternative by itself; Lalr in no others, and in all of them if it carries lookaheads on; Slr in the columns of FOLLOW.", "quantifier": "all grammars and methods, both build modes", "why_tests_cant": "all grammars", "anchors": ["src/slr.rs::proc_closures", "src/clr.rs::proc_closures", "src/lalr.rs::proc_closures", "src/grammar.rs::new"]}
{"id": "C135", "title": "Leaving alternatives out makes no conflicts", "statement": "If the alternatives of one grammar are among those of another (renumbered as the gaps close; rules may be gone altogether), Slr and Clr find a conflict in the smaller only where they find one in the larger: after the same symbols and before the same terminal. So they find none in it if the larger has none. (Lalr does: the alternative left out may have kept two states apart.) Conversely, alternatives may be added without harm as long as the new table is free of conflicts: every input the old parser accepts is accepted by the new one with the same value, whatever the methods.", "quantifier": "all pairs of grammars, both build modes, all inputs and reduction functions", "why_tests_cant": "all pairs of grammars and all inputs", "anchors": ["src/slr.rs::proc_closures", "src/clr.rs::proc_closures", "src/slr.rs::proc_actions", "src/clr.rs::proc_actions", "src/dfa.rs::start"]}
{"id": "C136", "title": "Lalr's table is Clr's folded", "statement": "If no transition of Lalr's table loses a lookahead and every lookahead has been handed out (C123), Lalr's table is Clr's with the states that have the same items put together: each cell holds exactly what the cells of those states hold in its column, with the targets renamed. Where a shift meets another action in it, it meets one in a state of Clr with the same items; so if Clr finds no conflict, the conflicts Lalr finds are between reductions.", "quantifier": "all grammars, both build modes", "why_tests_cant": "all grammars, all cells", "anchors": ["src/lalr.rs::proc_closures", "src/lalr.rs::proc_actions", "src/clr.rs::proc_actions"]}
{"id": "C137", "title": "Lalr's lookaheads come from Clr's states", "statement": "Whatever the order in which Lalr meets its states and even where it gets lookaheads wrong (C15, C90): each lookahead of an item in one of its states is one of the same item in a state of Clr that has all the items of that state, perhaps more. So where a shift meets another action in Lalr's table, Clr's has a conflict in the same column of such a state; and if Clr finds no conflict, all conflicts Lalr finds are between reductions. The same holds if Clr finds no conflict in a larger grammar and Lalr is given one with fewer of its alternatives (C135).", "quantifier": "all grammars whose end symbol is a terminal, both build modes (in a release build, if only terminals are lookaheads)", "why_tests_cant": "all grammars, whatever the order of the merges", "anchors": ["src/lalr.rs::proc_closures", "src/lalr.rs::update_closures", "src/lalr.rs::update_state", "src/lalr.rs::proc_actions"]}
{"id": "C138", "title": "Blanks, names and signs in wop's files", "statement": "Spaces, tabs, newlines and carriage returns in front of a text add neither tokens nor errors, they only move the tokens along. A letter or underscore and the letters, digits and underscores after it, up to another ASCII character or the end, are one token: AliasWord or UseWord if they spell the keyword, an identifier if not (a name that only starts with a keyword is an identifier); and identifiers in ASCII are exactly such names. The signs = | ( ) ; :: * ? & are their tokens whatever follows, : if no other : follows. With any other ASCII character no token, comment or code block starts, so it is an error there: digits, for instance.", "quantifier": "all texts, all readings of \\w beyond ASCII that are in bytes beyond ASCII", "why_tests_cant": "all texts", "anchors": ["wop/src/lib.rs::lexer"]}
{"id": "C139", "title": "The positions of a state are in order", "statement": "Whatever the method, the positions of every state are listed by the rule's symbol, then by the right-hand side (as words in a dictionary), then by the number of the alternative, then by the place of the dot, and last by the lookaheads; none is listed twice. So the printed states list them in this order.", "quantifier": "all grammars and methods, both build modes, all orders on symbols", "why_tests_cant": "all grammars and orders", "anchors": ["src/pos.rs::new", "src/slr.rs::proc_closures", "src/clr.rs::proc_closures", "src/lalr.rs::proc_closures"]}
