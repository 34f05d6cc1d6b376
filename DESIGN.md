# Formal model of Defmc/lrp in Rocq (Coq 8.16.1)

## What is modelled

`rocq/theories/Model.v` is an executable Gallina transcription of the `lrp`
crate, function by function (each definition cites file and lines):
`Grammar::new`, `Position`, `Tabler` (FIRST, FOLLOW, `sym_filter`,
`conflicts`, `reduce_equals`), the `Slr`, `Clr` and `Lalr` constructions,
the `Dfa` driver (`shift`, `reduce`, `travel`, `start`, `reset`, `parse`) and the
`Parser` trait's provided methods. `Show.v` models `stack_fmt` and the tables
`src/main.rs` prints; `Trace.v` models `trace` with its observer and `print_proc_dfa`,
`Binary.v` the rest of `src/main.rs`. `Grammars.v` holds the grammars of the repository's tests.

`wop` is modelled end to end: `Wop.v` its syntax trees, reductors, `Builder`
(`process`, `rule_decl`, `get_production`, `set_sub_aliases`, ...) and the
statements it emits; `WopLex.v` the `logos` lexer of `wop/src/lib.rs` and
`from_str`; `WopText.v` the emitted text and `main`; `WopPrint.v` slicing with its
panics, the lines about tokens and `print_nested`. wop parses with the generated
grammar in `out.rs` (`wop_rules`), run by the model of `lrp`'s own driver.

Conventions:

* symbols are any type with a lawful Rust `Ord` (class `Ord` in `BTree.v`);
* `BTreeSet`/`BTreeMap` are their sorted element lists, so iteration order is the real one;
* panics are explicit results `Panic why`; `dbg : bool` selects a build with or without debug assertions;
* loops take fuel: "returns v" = for some fuel the model answers `Val v`; "diverges" = `Fuel` for every fuel;
* reductors are total pure functions; the token iterator is a finite list.

`Text.v` models the texts of `Display` and derived `Debug` that `lrp` prints, with
`{:?}` of a symbol a parameter (`str_debug` for `&str`).

Not modelled: the layout of tables by `prettytable`, file IO and terminal output
(the texts are modelled, not their writing), `Rc` sharing,
memory and stack limits. Of `logos`: the generated
automaton; the model is its documented rule (longest match, then priority), with
the length of an error token and the characters beyond ASCII in `\w` left open
(record `logos`). Sources are strings of bytes.
Of Rust: the emitted code's compilation, except the types of its `let`
statements (`WopType.v`), its run as modelled by `run_all`, and its text as read
by `RustSpec.v` (items, `let`, assignment, indexing, ranges, `clone`, `to_vec`; no
comments, strings or character literals, so code blocks need balanced braces).
In C107 a code block is a total function of `toks` and the names in its scope.
In C109 the 14 code blocks of wop.grammar are modelled by hand (`WopSelf.v`), independently of the reductors of out.rs (`Wop.v`).

## Files

| file | content |
|---|---|
| `BTree.v` | ordered sets and maps |
| `Model.v` | the model |
| `Spec.v` | independent specification: derivations, parse trees, languages, FIRST/FOLLOW, ... |
| `LR1Spec.v` | independent definitions of LR(1), SLR(1) and LALR(1) grammars by rightmost derivations |
| `RenameSpec.v` | grammars that differ in names, in the order of the symbols and in the order of the alternatives |
| `Strings.v`, `Grammars.v` | string symbols; the repository's test grammars |
| `Show.v`, `Trace.v`, `Binary.v`, `BinaryTables.v` | printed tables and stacks, observed runs, the binary |
| `Text.v`, `TextSpec.v` | printed texts; symbols whose texts can be told apart |
| `StatesSpec.v` | kernels and cores of states |
| `TraceSpec.v`, `BinarySpec.v` | shift-reduce parsing by hand, reading a printed run; bracket lines |
| `Wop.v`, `WopLex.v`, `WopText.v`, `WopPrint.v` | wop: builder, lexer, output, `main`, slices and prints |
| `WopExactSpec.v` | patterns whose statements compile, by their form alone |
| `WopGen.v`, `WopMeansSpec.v` | the reductors of a generated file as functions; what a grammar file says its inputs mean |
| `WopComment.v`, `WopReadme.v` | where comments and literals end; the example of wop's README and the sentences of its grammar |
| `WopOrder.v`, `WopOrderSpec.v`, `WopOrderR.v`, `WopOrderEx.v` | the aliases of a production name by name, whatever the order of the hash sets; what that order can change |
| `StopsSpec.v`, `Stops.v`, `StopsLoop.v`, `StopsEx.v`, `Prop_Stops.v` | repeated doubling of a relation; when the loops of `Tabler::new` stop; chains of corners; examples |
| `WopWide.v`, `WopSelf.v`, `WopSelfP.v` | ASCII texts have the same tokens for all choices of logos; the code blocks of wop.grammar and the front end generated from it |
| `WopOut.v` | the text of /repo/wop/src/out.rs, compared token for token with what the model of wop writes for wop.grammar |
| `Quotient.v` | the map from the states of Slr and Clr onto those of Lalr |
| `Unique.v`, `UniqueEx.v`, `Prop_Unique.v` | parse trees of accepted inputs; examples |
| `DilemmaSpec.v`, `Dilemma.v`, `DilemmaEx.v`, `Prop_Dilemma.v` | choices a grammar leaves after a prefix and a next symbol; Clr's conflicts are these |
| `ValidSpec.v`, `Valid.v`, `Textbook.v`, `ValidEx.v`, `Prop_Valid.v` | valid items; the SLR(1), LR(1) and LALR(1) machines of a grammar, defined by rightmost derivations; the drivers are these machines |
| `Pass.v`, `PassB.v`, `PassEx.v`, `Prop_Pass.v` | lookaheads handed on from item to item; when those of Lalr are exact, with a procedure that checks it for a table |
| `Dead.v`, `DeadEx.v`, `Prop_Dead.v` | two drivers of machines that call for the same steps run in lockstep; rules out of reach |
| `CompareSpec.v`, `Compare.v`, `CompareEx.v`, `Prop_Compare.v` | the three parsers of one grammar on one input, conflicts or not |
| `CircleSpec.v`, `Circle.v`, `CircleEx.v`, `Prop_Circle.v` | runs that do not return |
| `HeightSpec.v`, `Height.v`, `HeightEx.v`, `Prop_Height.v` | how high the stack gets |
| `LiveSpec.v`, `Live.v`, `LiveEx.v`, `Prop_Live.v` | every cell of the table is used |
| `Work.v`, `WorkStates.v`, `Expo.v`, `WorkEx.v`, `Prop_Work.v` | how many rounds, turns and states the generator takes |
| `StatesText.v`, `StatesTextEx.v`, `Prop_StatesText.v` | what the printed states table, tokens table and stack tell |
| `CanonSpec.v`, `ClrStates.v`, `ClrStatesEx.v`, `Prop_ClrStates.v` | Clr's states and the canonical LR(1) collection; how many states Slr and Clr can have |
| `RenameRun.v`, `RenameRunEx.v`, `Prop_RenameRun.v` | renamed grammars: the same answers to all inputs |
| `TokensTab.v` | what the printed tokens table shows in general |
| `LostSpec.v`, `Lost.v`, `LostEx.v`, `Prop_Lost.v` | which lookaheads Lalr must keep to accept every sentence |
| `WithinSpec.v`, `LalrWork.v`, `WithinEx.v`, `Prop_Within.v` | Lalr's construction with separate limits on rounds, nesting and turns |
| `UsedSpec.v`, `Used.v`, `Reduces.v`, `UsedEx.v`, `Prop_Used.v` | the alternatives that get into a table, the columns it reduces in; exact conditions for C82, C83, C103 |
| `FewerSpec.v`, `Fewer.v`, `FewerEx.v`, `Prop_Fewer.v` | a grammar with some of another's alternatives: conflicts and values of the two |
| `FoldSpec.v`, `Fold.v`, `FoldEx.v`, `Prop_Fold.v` | Lalr's table as Clr's with states put together; which conflicts that makes |
| `LalrKern.v`, `Above.v`, `AboveEx.v`, `Prop_Above.v` | a predicate on whole states kept by Lalr's construction; where its lookaheads come from, without conditions |
| `WopFields.v`, `WopCut.v` | what the printed tree says about each node; when slices succeed |
| `WopWordSpec.v`, `WopWord.v`, `Prop_WopWord.v` | blanks, names and signs in wop's sources, by character codes |
| `OrderSpec.v`, `OrderP.v`, `Prop_Order.v` | the order of the positions in a state |
| `WopPrintSpec.v` | UTF-8; where the nodes of a tree lie in the source |
| `WopSpec.v`, `WopFront.v`, `WopLexSpec.v`, `WopTextSpec.v` | independent specification of wop: patterns, concrete syntax, tokens, a reader of the emitted text |
| `RustSpec.v` | a reader and interpreter for the small part of Rust wop emits, and what out.rs should be |
| `WopBoot.v` | wop's own grammar file as tokens |
| `Interface.v`, `Wrap.v`, `Export.v`, `WopExport.v`, `WopSum.v` | lemmas in the form the theorems state them |
| `Examples.v`, `Bundled.v`, `WopEx*.v`, `Refute*.v` | concrete runs and counterexamples |
| proof files | lemmas |
| `Prop_*.v` | only property theorems, each `exact lemma`, with `Print Assumptions` and a non-vacuity example |

## Per property plan

* C01 direct, from the definition of the loop. Spec: set comprehension.
* C02, C03 invariant: the reachable-terminal relation of the table graph is unchanged by a step; at a fixpoint the terminal part is closed. Spec: derivations.
* C04 false as stated: 3-cycles diverge (`_refuted`). Partial: a rank function on left corners / right corners (no indirect recursion) implies termination.
* C05 debug builds: guaranteed when `Tabler::new` returns; release: `_refuted`; holds under the rank condition.
* C06 closure step is inflationary in a finite universe; least fixpoint characterised inductively.
* C07, C08 finite universe of kernels; `kernels` keys are pairwise distinct; the worklist covers every row and symbol.
* C09 same plus a lookahead-growth measure for merging.
* C10-C12 stack invariant (path through the automaton + parse tree per item). For grammars whose start symbol occurs in no right-hand side. `_refuted` otherwise (Slr, Lalr).
* C13, C14 simulation of every parse tree. C15 `_refuted` by a witness; `_partial` under an explicit closedness condition on the finished table.
* C16, C18 consequences of the tree-carrying invariant and of the simulation. C17 `_refuted`.
* C19 no two unit reductions of a cycle can both be conflict-free; C20 `_refuted`, `_partial` for conflict-free tables of productive grammars.
* C21-C24 stack invariant. C25 bisimulation. C26 fold invariant. C27 cores of Clr/Lalr states are Slr states, lookaheads are in FOLLOW. C28 `_refuted`.
* C29 fold invariant. C30 `_refuted` and exact characterisation. C31 induction on fuel. C32 corollary. C33-C36 structural induction on patterns. C37 LR(1) item validity. C38 instances by `vm_compute` of the table (finite) + general theorems (all inputs). C39 step-locality. C40 from construction invariant.

* C41-C61 refine C01-C40: exact conditions, converses, totality, the printed tables.
* C62 uniqueness of the concrete syntax by structural induction; decision by completeness of the Clr tables of wop's grammar.
* C63, C64 induction on the source. C65 automaton of the code block regex. C66-C69 induction on patterns; for alternatives whose names differ, a closed form of what is bound (`WopShape.v`) gives the converses of C34, C66 and C67. C70 decimal numerals. C71, C72 from C33. C73, C74 stack invariant of the driver at the error. C75, C76 the text.
* C77 induction on patterns. C78 lexing, parsing and executing the emitted statements. C79, C80 the reader applied to the emitted text, piece by piece.
* C81 the row of the configuration before the error (C56), with Clr's lookaheads exact. C82, C83 iterating `reduce_equals` until no rows are equal. C84 simulation of two runs. C85 from C16. C86 the configuration does not change in a failing round. C87 the decisions behind an entry.
* C88-C90 an item of a state corresponds to a right sentential form whose prefix leads to the state (`Handle.v`); conflicts correspond to pairs of handles. C90 `_refuted` both ways, `_partial` for tables that carry their lookaheads everywhere. C91 lock-step simulation of the two constructions. C92 both automata follow the same paths and have pairwise different item sets.
* C93 the classes of C88 and C89, the sentences and the values do not depend on names; C94 `_refuted` for Lalr by exchanging two names, `_partial` for SLR(1) grammars (conflicts) and tables that carry their lookaheads everywhere (language, values).
* C95 induction over the rounds: each is a shift or a reduction of a right-hand side found on the stack; a rightmost derivation backwards from the accepting one. C96 potential: 2 rules + 1 per token to come, rules per symbol on the stack, less the nonterminals its top has been (a repeated one would be a loop).
* C97 the observer's rows are a function of the observed parsers; each round read off the table. C98 the tables by computation, the language by the sentential forms, the rest from C38's check, C96 and C97.
* C99 tokens end between characters, spans of nodes reach from token to token (C100), printing by induction on trees, and the builder's result depends on slices at spans of the tree only. C100 every reductor keeps its node on the tokens of its children. C101 induction on trees; for what is said about single nodes (`WopFields.v`), the lines of every node inside a tree are an infix of the tree's.
* C102-C105 every text is a sequence of pieces that can be split again, given symbols whose texts can. C106 the worklist adds a state only under a new kernel, met by a move.
* C107 an evaluation with the emitted productions and reductors (C33-C35) is a meaning of the file and conversely, by induction on either; then C45, and C50 for the inputs without meaning.
* C108 the README's text is run through the model; the sentences of the emitted grammars follow from an invariant of sentential forms.
* C110 as C65, an automaton for the inside of a comment; literals by induction.
* C109: the code blocks of wop.grammar as functions; each emitted reductor equals the one of out.rs on all token lists; order by C111.
* C111: for each name a closed form of the statements binding it, without the order; the run of a reductor depends only on these.
* C112: after k rounds the nonterminals in a table are the k-fold doubling of the corners (`rounds`); once they stand still the terminals only grow, and there are finitely many.
* C113: on a cycle the k-th doubling is 2^k steps, cut off when it closes; it closes just when the length divides 2^k.
* C114: the table returned is the fixed point, whose nonterminals C112 describes.
* C115: the model writes the file by computation; its tokens are compared with those of out.rs. `rustfmt` has gone over out.rs, so layout and commas before closing brackets are ignored; the HashMap orders are given as permutations. This also tests the model of `Builder::dump`, `dump_grammar` and `dump_reductor` against real output.
* C116: without cycles the k-th doubling is exactly the walks of 2^k steps, and a walk visits no nonterminal twice.
* C117: states reached by the same symbols have the same items; Lalr's states differ in their items (C106).
* C118: a run follows every parse tree of its input until it meets a conflict; reductors that build the tree show which one.
* C119: the items of a state of Clr, with their lookaheads, are those valid after the symbols leading there (C88), whatever the path.
* C120, C121: items and valid items are the same by induction on paths and on rightmost derivations (C88); the entries list what the items call for (C26).
* C122: what the LR(1) machine calls for is stated by rightmost derivations from the start symbol, which are the same for both grammars; the drivers then run in lockstep by C121.
* C123: every lookahead handed on is an LALR(1) one by induction on the way it was handed on, and the other way round by induction on rightmost derivations (as for C120), since states of Lalr with the same items are the same; both conditions are then necessary and sufficient. The repository's grammars satisfy them by a checker proved correct.
* C124: a stronger machine calls for no step a weaker one does not (FOLLOW contains the merged lookaheads, these the exact ones), so by C121 both drivers run in lockstep until the weaker meets a conflict or the stronger has no step; from there the weaker can only reduce, since a step after a reduction would have justified the reduction, and so ends in a conflict or rejects the same token.
* C125: the potential of C96 falls in every round unless the symbol on top of the stack becomes one it has been since it was pushed; then the states are the same too (moves are functions), and the driver, which does not look at values, is where it was. The converse is that the driver is deterministic. The cells passed on the way round are those of `spins`. Hypotheses: terminal tokens and (for the direct part) a reductor for every production; without these a run can end in a panic (C21), or push states forever without reading (`nt_diverges` in `Refute.v`: a token typed with a nonterminal).
* C126: the items of a state are justified by the items before it, which gives a way down from the start symbol (`spine`); with left recursion only, no nonterminal on it that has left a symbol behind occurs again. For the other direction the driver is followed (as in C14) down a rightmost sentential form; a loop of the way down is repeated. Hypotheses of that direction: those of C14 and all symbols productive. Values and the stack's capacity (memory) are not modelled.
* C127: an item of a state is valid for some stack (C120, C123); completing the rightmost derivation that shows it gives a sentence whose parse has that stack, by the completeness of the driver, and the terminal looked at is the one the item asks for. The driver is deterministic, so without the cell it gets there and answers `UnexpectedToken`. For `Slr` this holds for shifts and gotos only: `C127_slr_dead` shows a reduce cell that no sentence uses.
* C128: an item in a closure goes back to the seed through a chain of left corners; the chain can be cut so that no nonterminal comes twice with Slr, no nonterminal twice after the lookahead has settled and none twice before with Clr, which bounds the rounds (`Work.v`). The loop over the states takes one state a turn, the states it adds are new, so it turns once for each state. States of Lalr differ in the items past the beginning of a right-hand side (`WorkStates.v`). `Expo.v` has a family of LR(0) grammars that reads off which of n letters have been seen: each subset is a state.
* C129: the rows of the states table (C54) turned into text; names of rows, numbers and positions can be read back (C103), every state is some move's target, so equal texts mean equal tables. The stack with its values is read like the stack without (C104), a token being a symbol whose text is self-delimiting if those of its value and type are.
* C130: the sets of lookaheads in Clr's positions are the end marker's and those beginning a symbol (induction over the states in the order they are made), so states can be counted like Lalr's (C128). States with the same LR(1) items: kernel items and their lookaheads come from before a move, all others from the kernel (`just`, `justl`), so moves keep "the same LR(1) items". With one terminal in each FIRST set in use, positions are LR(1) items.
* C131: what the grammar calls for after a prefix (`calls_for`, C121) is carried over by a renaming in both directions, so both drivers make corresponding steps; induction over the run of either one. LALR(1)-ness is carried over in the same way.
* C132: a table that keeps the lookaheads of completed items has a cell for whatever the LR(1) machine calls for, so Lalr's run follows Clr's step by step; conversely in an accepted run of Lalr each step is one the LR(1) machine calls for (read backwards from the end: the stack and the rest of the input are a right sentential form), and each lookahead that can come after a prefix does so in the parse of some sentence (C127).
* C133: the construction is written once more with three separate limits and without the `continue 'regen`; each nested call of `update_closures` works on kernels whose dots stand one place further right, so the kernel being handed on is never touched meanwhile and the nesting ends with the longest right-hand side; each turn that does not go on to the next state adds a pair of item and lookahead to a kernel.
* C134: every item has a reason in its state or in the state before (LR0 invariant), and the dot moves on through every right-hand side. For the reductions one invariant holds of every position Clr and Lalr make, through closure, moves and merging: its alternative is met, its terminals follow it there, and its lookahead set is not empty if the grammar is productive (so merging has to keep the lookaheads of each position merged). With C134 C103 holds exactly if no alternative met is written twice (Slr, Clr: their states are closed, so both twins get the same lookaheads). C82 and C83 are made exact by the renumbering `reduce_equals` does: two rows become one just when they agree up to states with equal rows, and a row lost leaves a kernel without one. For Slr the columns are those of FOLLOW (in a debug build, or if FIRST and FOLLOW hold terminals only).
* C135: the automaton of the larger grammar follows every path of the smaller's; by induction on the path and on the reason for an item, the state it reaches holds every item of the smaller's state (alternatives renumbered), for Clr with every lookahead, for Slr because the FOLLOW rules are monotone. Two different actions in a cell map to two different actions. Values: an evaluation by the smaller grammar is one by the larger, and a conflict-free table computes it (C17, C22). For Lalr the claim about conflicts is false (`C135_lalr_refused`): the alternative left out may have kept two states apart.
* C136: the map of C117 goes from Clr's states to Lalr's. By induction on how a lookahead was handed out, a lookahead of Lalr's is one in some state of Clr put into the state; conversely Clr's lookaheads are among Lalr's (C28). Shifts and gotos agree by C117. The condition (every lookahead handed out, none lost on the way) is that of C123; without it a cell can hold more (`C136_loose`) or less (C15).
* C137: an invariant of Lalr's construction on whole states instead of single items: every lookahead in a kernel or state is one of the same item in a state of Clr with all the items of that kernel or state. Closing, moving on (also from a kernel alone, as `update_closures` does, which is where C90's lookaheads come from) and merging states with the same items keep it. A shift in Lalr's state is then a shift in that state of Clr too, and meets the reduction there.
* C138: the character classes are characterised by codes, the entries of the lexicon that can match at all after a given first character by derivatives of all entries; tokens are then the longest runs of such characters. The scanner depends neither on its limit nor, but for the spans, on its position. `outside` (what `\w` matches beyond ASCII is written in bytes from 128) is a hypothesis about UTF-8.
* C139: the derived order of `Position` unfolded field by field (`before`), and states are sorted lists by the invariants of the constructions.

## Trusted base

Coq's kernel; the reading of the Rust source embodied in `Model.v`, `Show.v`, `Trace.v`, `Binary.v`, `Text.v`, `Wop.v`, `WopLex.v`, `WopText.v`, `WopPrint.v`, `WopGen.v`;
lawfulness of the user's `Ord`/`Eq` on symbols; `BTreeMap`/`BTreeSet`/`Vec`
behave as documented. `Print Assumptions` is printed under every property theorem and says "Closed under the global context" for each: no axioms, not even the standard library's.
