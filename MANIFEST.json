{"claims": [
{"property": "C01", "status": "proved", "theorems": ["C01_grammar_new"], "note": ""},
{"property": "C02", "status": "proved", "theorems": ["C02_first_exact"], "note": ""},
{"property": "C03", "status": "partial", "theorems": ["C03_follow_exact_refuted", "C03_follow_exact_partial"], "note": "False in release builds (witness); exact in debug builds and whenever the tables hold only terminals. See C47."},
{"property": "C04", "status": "partial", "theorems": ["C04_tabler_total_refuted", "C04_tabler_total_partial"], "note": "False: indirect left recursion loops in FIRST, indirect right recursion in FOLLOW (witnesses). Total without indirect recursion. See C48."},
{"property": "C05", "status": "partial", "theorems": ["C05_only_terminals_refuted", "C05_only_terminals_partial"], "note": "False in release builds (witness). Holds in debug builds and without indirect recursion."},
{"property": "C06", "status": "proved", "theorems": ["C06_closure"], "note": ""},
{"property": "C07", "status": "proved", "theorems": ["C07_clr_total"], "note": ""},
{"property": "C08", "status": "proved", "theorems": ["C08_slr_total"], "note": ""},
{"property": "C09", "status": "proved", "theorems": ["C09_lalr_total"], "note": ""},
{"property": "C10", "status": "partial", "theorems": ["C10_clr_sound_refuted", "C10_clr_sound_partial"], "note": "False for a recursive start symbol when eof occurs in a production (witness). Proved otherwise; see C43, C57."},
{"property": "C11", "status": "partial", "theorems": ["C11_slr_sound_refuted", "C11_slr_sound_partial"], "note": "False for recursive start symbols (witness). Proved when the start symbol occurs in no right-hand side; see C43."},
{"property": "C12", "status": "partial", "theorems": ["C12_lalr_sound_refuted", "C12_lalr_sound_partial"], "note": "False for recursive start symbols (witness). Proved when the start symbol occurs in no right-hand side; see C43."},
{"property": "C13", "status": "partial", "theorems": ["C13_clr_complete_refuted", "C13_clr_complete_partial"], "note": "False for recursive start symbols and for several start productions in release builds (witnesses). Proved otherwise; see C44."},
{"property": "C14", "status": "partial", "theorems": ["C14_slr_complete_refuted", "C14_slr_complete_partial"], "note": "False for recursive start symbols and for several start productions in release builds (witnesses). Proved otherwise; see C44."},
{"property": "C15", "status": "partial", "theorems": ["C15_lalr_complete_refuted", "C15_lalr_complete_partial"], "note": "False: Lalr loses lookaheads and rejects a sentence of a conflict-free grammar (witness). Proved for tables whose transitions keep lookaheads; C132 says exactly when."},
{"property": "C16", "status": "proved", "theorems": ["C16_parse_folds"], "note": ""},
{"property": "C17", "status": "partial", "theorems": ["C17_start_value_refuted", "C17_start_value_partial"], "note": "False: the start rule's reductor is never called (witness; C52). Proved: the last argument it would get is returned."},
{"property": "C18", "status": "partial", "theorems": ["C18_clean_unambiguous_refuted", "C18_clean_unambiguous_partial"], "note": "False for recursive start symbols (witness). Proved otherwise; see C46."},
{"property": "C19", "status": "proved", "theorems": ["C19_clr_terminates"], "note": ""},
{"property": "C20", "status": "partial", "theorems": ["C20_slr_terminates_refuted", "C20_slr_terminates_partial"], "note": "False: Slr loops on c y for a cyclic grammar (witnesses). Proved without unit cycles and for conflict-free tables of reduced grammars; see C50, C59."},
{"property": "C21", "status": "partial", "theorems": ["C21_never_fails_refuted", "C21_never_fails_partial"], "note": "False in release builds on tokens typed with nonterminals (witness). Proved in debug builds (C51), for terminal tokens, and for tables holding only terminals."},
{"property": "C22", "status": "partial", "theorems": ["C22_unexpected_refuted", "C22_unexpected_partial"], "note": "False in release builds with several start productions (witness). Proved otherwise; see C58."},
{"property": "C23", "status": "proved", "theorems": ["C23_viable_prefix"], "note": ""},
{"property": "C24", "status": "partial", "theorems": ["C24_expected_refuted", "C24_expected_partial"], "note": "False: Slr's list misses legal tokens, every list can name nonterminals (witnesses). Proved: sorted, no duplicates, not the offending symbol; complete under Clr."},
{"property": "C25", "status": "proved", "theorems": ["C25_reduce_equals"], "note": ""},
{"property": "C26", "status": "proved", "theorems": ["C26_conflicts_exact"], "note": ""},
{"property": "C27", "status": "partial", "theorems": ["C27_slr_clean_refuted", "C27_slr_clean_partial"], "note": "False in release builds (witness). Proved in debug builds (C60) and when tables hold only terminals."},
{"property": "C28", "status": "partial", "theorems": ["C28_lalr_clean_refuted", "C28_lalr_clean_partial"], "note": "False: lost lookaheads hide conflicts (witness). Proved for tables whose transitions keep lookaheads; C132 says exactly when."},
{"property": "C29", "status": "proved", "theorems": ["C29_merged"], "note": ""},
{"property": "C30", "status": "partial", "theorems": ["C30_dfa_parse_refuted", "C30_dfa_parse_partial"], "note": "False: Dfa::parse panics after reset (witness). Proved for runs that never reduce the whole stack; see C53."},
{"property": "C31", "status": "proved", "theorems": ["C31_transitive"], "note": ""},
{"property": "C32", "status": "partial", "theorems": ["C32_agree_refuted", "C32_agree_partial"], "note": "False for recursive start symbols (witness). Proved otherwise, with equal values."},
{"property": "C33", "status": "proved", "theorems": ["C33_expansion"], "note": ""},
{"property": "C34", "status": "partial", "theorems": ["C34_refuted", "C34_toks_refuted", "C34_partial", "C34_exact"], "note": "False: an alias behind an absent optional inside a group can be bound to a wrong token, and an alias named toks hides the argument (witnesses). Proved for the patterns `good` describes, and that these are the only ones among those whose names differ and whose productions are not empty."},
{"property": "C35", "status": "proved", "theorems": ["C35_lined_up"], "note": ""},
{"property": "C36", "status": "partial", "theorems": ["C36_recorded", "C36_spelling_refuted"], "note": "Redefinitions are recognised by spelling only: a::S and a :: S are two rules (witness). Proved with names compared as texts."},
{"property": "C37", "status": "proved", "theorems": ["C37_clr_immediate"], "note": ""},
{"property": "C38", "status": "proved", "theorems": ["C38_bundled_exact"], "note": ""},
{"property": "C39", "status": "proved", "theorems": ["C39_local"], "note": ""},
{"property": "C40", "status": "proved", "theorems": ["C40_resolvable"], "note": ""},
{"property": "C41", "status": "proved", "theorems": ["C41_deterministic"], "note": ""},
{"property": "C42", "status": "proved", "theorems": ["C42_debug_release"], "note": ""},
{"property": "C43", "status": "proved", "theorems": ["C43_sound"], "note": ""},
{"property": "C44", "status": "proved", "theorems": ["C44_exact"], "note": ""},
{"property": "C45", "status": "proved", "theorems": ["C45_exact_value"], "note": ""},
{"property": "C46", "status": "proved", "theorems": ["C46_clean_unambiguous_debug"], "note": ""},
{"property": "C47", "status": "proved", "theorems": ["C47_follow_exact_debug"], "note": ""},
{"property": "C48", "status": "proved", "theorems": ["C48_tabler_total_acyclic"], "note": ""},
{"property": "C49", "status": "proved", "theorems": ["C49_empty_production_panics"], "note": ""},
{"property": "C50", "status": "proved", "theorems": ["C50_terminates"], "note": ""},
{"property": "C51", "status": "proved", "theorems": ["C51_never_fails_debug"], "note": ""},
{"property": "C52", "status": "proved", "theorems": ["C52_start_reductors_unused"], "note": ""},
{"property": "C53", "status": "proved", "theorems": ["C53_dfa_parse_panics"], "note": ""},
{"property": "C54", "status": "proved", "theorems": ["C54_states_table", "C54_actions_table"], "note": ""},
{"property": "C55", "status": "proved", "theorems": ["C55_trace"], "note": ""},
{"property": "C56", "status": "proved", "theorems": ["C56_stack"], "note": ""},
{"property": "C57", "status": "proved", "theorems": ["C57_clr_sound_recursive"], "note": ""},
{"property": "C58", "status": "proved", "theorems": ["C58_unexpected_debug"], "note": ""},
{"property": "C59", "status": "proved", "theorems": ["C59_clean_terminates"], "note": ""},
{"property": "C60", "status": "proved", "theorems": ["C60_slr_clean_debug"], "note": ""},
{"property": "C61", "status": "partial", "theorems": ["C61_tokens_table_refuted", "C61_tokens_table_partial", "C61_tokens_table_exact"], "note": "False when a rule is used by no other rule: the zip shifts the FOLLOW column (witness). Proved otherwise; the exact theorem says what each row shows and when all are right."},
{"property": "C62", "status": "proved", "theorems": ["C62_syntax"], "note": ""},
{"property": "C63", "status": "proved", "theorems": ["C63_total"], "note": ""},
{"property": "C64", "status": "proved", "theorems": ["C64_tokens"], "note": ""},
{"property": "C65", "status": "partial", "theorems": ["C65_refuted", "C65_partial"], "note": "False: an odd number of extra closing braces before }% hides it (witness). The partial theorem says exactly when it is true."},
{"property": "C66", "status": "partial", "theorems": ["C66_refuted", "C66_partial", "C66_exact"], "note": "False for aliased optional groups (witness). Proved for all other patterns; exact characterisation when the names differ."},
{"property": "C67", "status": "partial", "theorems": ["C67_refuted", "C67_partial", "C67_exact"], "note": "False for an alias in only one alternative of a group (witness). Proved when aliases stand outside groups; exact characterisation when the names differ."},
{"property": "C68", "status": "partial", "theorems": ["C68_refuted", "C68_ignored_partial"], "note": "False: both forms clone (witness). Proved that the flag is ignored: files differing in it only give the same builder."},
{"property": "C69", "status": "partial", "theorems": ["C69_refuted", "C69_empty_refuted", "C69_partial"], "note": "False: wrong indices (see C34), and every empty production's reductor indexes toks[0] (witnesses). Proved for nonempty productions of `good` patterns."},
{"property": "C70", "status": "partial", "theorems": ["C70_distinct", "C70_identifier_refuted", "C70_identifier_partial"], "note": "Distinctness proved. Identifiers: false for rules named by paths (witness); a name is an identifier exactly if the rule's is."},
{"property": "C71", "status": "partial", "theorems": ["C71_refuted", "C71_partial", "C71_exact"], "note": "False: aliases apply only to later rules (witness). Proved for rules without symbols aliased later; the exact theorem says precisely which rules."},
{"property": "C72", "status": "partial", "theorems": ["C72_refuted", "C72_partial", "C72_exact"], "note": "False if an alias has the name of a rule (witness). Proved otherwise; the exact theorem says precisely which rules keep their references."},
{"property": "C73", "status": "proved", "theorems": ["C73_main"], "note": ""},
{"property": "C74", "status": "partial", "theorems": ["C74_refuted", "C74_panic_refuted"], "note": "False: out.rs is overwritten with the declarations before the error, or main panics (witnesses). What it does instead is C73."},
{"property": "C75", "status": "partial", "theorems": ["C75_refuted", "C75_partial", "C75_exact"], "note": "False: from_str leaves the entry type empty, which dump_reductor asserts against (witness). Proved exactly for a nonempty entry type."},
{"property": "C76", "status": "proved", "theorems": ["C76_reads_back"], "note": ""},
{"property": "C77", "status": "proved", "theorems": ["C77_names"], "note": ""},
{"property": "C78", "status": "proved", "theorems": ["C78_statements"], "note": ""},
{"property": "C79", "status": "proved", "theorems": ["C79_reductors"], "note": ""},
{"property": "C80", "status": "proved", "theorems": ["C80_out"], "note": ""},
{"property": "C81", "status": "proved", "theorems": ["C81_expected_exact"], "note": ""},
{"property": "C82", "status": "partial", "theorems": ["C82_reduce_equals_leaves_none_refuted", "C82_reduce_equals_leaves_none_partial", "C82_exact"], "note": "False after one call (witness: 15, 14, 13 rows). Proved after as many calls as there are rows, together with what every parse does afterwards; the exact theorem says when one call suffices."},
{"property": "C83", "status": "partial", "theorems": ["C83_reduce_equals_kernels_refuted", "C83_reduce_equals_kernels_partial", "C83_exact"], "note": "False: kernels keeps the old numbers (witness). Proved exactly if no two rows are equal."},
{"property": "C84", "status": "proved", "theorems": ["C84_values_do_not_matter"], "note": ""},
{"property": "C85", "status": "proved", "theorems": ["C85_cloned"], "note": ""},
{"property": "C86", "status": "partial", "theorems": ["C86_start_again_refuted", "C86_start_again_partial"], "note": "False after IncompleteExec, where a second call returns Ok (witness). Proved for Ok and every other error."},
{"property": "C87", "status": "partial", "theorems": ["C87_columns_refuted", "C87_columns_partial"], "note": "False in release builds whose FIRST holds nonterminals (witness). Proved for debug builds and where FIRST and FOLLOW hold terminals only."},
{"property": "C88", "status": "proved", "theorems": ["C88_clr_LR1"], "note": ""},
{"property": "C89", "status": "proved", "theorems": ["C89_slr_SLR1"], "note": ""},
{"property": "C90", "status": "partial", "theorems": ["C90_lalr_LALR1_refuted", "C90_lalr_only_LALR1_refuted", "C90_lalr_LALR1_partial"], "note": "False both ways (witnesses): update_closures passes new lookaheads on from the kernel alone, to wrong states (conflict in an LALR(1) grammar) and not to all right ones (missed conflict). Proved: a conflict-free table whose lookaheads are carried everywhere belongs to an LALR(1) grammar. C123 says exactly when the lookaheads are the LALR(1) ones."},
{"property": "C91", "status": "proved", "theorems": ["C91_lalr_is_clr"], "note": ""},
{"property": "C92", "status": "partial", "theorems": ["C92_lalr_slr_states_refuted", "C92_lalr_slr_states_partial"], "note": "False if the start symbol occurs on a right-hand side: Slr keeps the end marker in the items of the start symbol and splits states (witness). Proved for all other grammars."},
{"property": "C93", "status": "proved", "theorems": ["C93_renaming"], "note": ""},
{"property": "C94", "status": "partial", "theorems": ["C94_lalr_conflicts_refuted", "C94_lalr_language_refuted", "C94_lalr_renaming_partial"], "note": "False: exchanging the names of two terminals brings a conflict or makes a rejected input accepted (two witnesses), as states are visited in the order of the symbols and lookaheads found late are not passed on. Proved: no conflicts under either naming for SLR(1) grammars; same language and values if both tables carry their lookaheads everywhere."},
{"property": "C95", "status": "proved", "theorems": ["C95_observed", "C95_derivation"], "note": ""},
{"property": "C96", "status": "proved", "theorems": ["C96_linear", "C96_total"], "note": ""},
{"property": "C97", "status": "proved", "theorems": ["C97_printed_run"], "note": ""},
{"property": "C98", "status": "proved", "theorems": ["C98_binary", "C98_trimmed", "C98_tables"], "note": ""},
{"property": "C99", "status": "proved", "theorems": ["C99_slices", "C99_exact"], "note": ""},
{"property": "C100", "status": "proved", "theorems": ["C100_places"], "note": ""},
{"property": "C101", "status": "proved", "theorems": ["C101_printed", "C101_fields"], "note": ""},
{"property": "C102", "status": "proved", "theorems": ["C102_messages", "C102_legible"], "note": ""},
{"property": "C103", "status": "partial", "theorems": ["C103_states_refuted", "C103_states_partial", "C103_positions_partial", "C103_met", "C103_exact"], "note": "False: the number of the alternative is not printed, so that an alternative written twice gives two positions with one text (witness). Proved for all other grammars, and (Slr, Clr) exactly for those without such alternatives within reach."},
{"property": "C104", "status": "proved", "theorems": ["C104_run"], "note": ""},
{"property": "C105", "status": "partial", "theorems": ["C105_headings_refuted", "C105_headings_partial", "C105_table"], "note": "False for every table: the column with the state's number has no title, so that the titles of the nonterminals stand one column too far left. Proved: terminals stand below their titles, nonterminals one column further right; the text determines the table."},
{"property": "C106", "status": "proved", "theorems": ["C106_states", "C106_cores"], "note": ""},
{"property": "C107", "status": "proved", "theorems": ["C107_means", "C107_decides"], "note": ""},
{"property": "C108", "status": "partial", "theorems": ["C108_refuted", "C108_clash_refuted", "C108_partial"], "note": "False twice (witnesses): the example is a syntax error (aliases are written without =), and once repaired its grammar has no sentences, as an alias has the name of a rule. Proved with that token renamed."},
{"property": "C110", "status": "partial", "theorems": ["C110_refuted", "C110_block_partial", "C110_line", "C110_string"], "note": "False for block comments: an odd number of extra asterisks before */ hides it, and a rule is lost (witness). The partial theorem says exactly when it is true; line comments and literals proved."},
{"property": "C111", "status": "partial", "theorems": ["C111_refuted", "C111_partial", "C111_parser"], "note": "False of the text: the statements binding the names missing from an alternative are written in the order of a HashSet (witness, two orders). Proved: errors, imports, grammar, code blocks and the statements binding any one name do not depend on the order, and the generated parsers are the same function unless a reductor binds toks."},
{"property": "C109", "status": "proved", "theorems": ["C109"], "note": ""},
{"property": "C112", "status": "proved", "theorems": ["C112_debug_outcomes", "C112_release_outcomes"], "note": ""},
{"property": "C113", "status": "proved", "theorems": ["C113_chains"], "note": ""},
{"property": "C114", "status": "proved", "theorems": ["C114_nonterminals_left"], "note": ""},
{"property": "C115", "status": "proved", "theorems": ["C115"], "note": ""},
{"property": "C116", "status": "proved", "theorems": ["C116_rounds"], "note": ""},
{"property": "C117", "status": "proved", "theorems": ["C117_lalr_quotient"], "note": ""},
{"property": "C118", "status": "proved", "theorems": ["C118_accepted_unique", "C118_ambiguous_conflict"], "note": ""},
{"property": "C119", "status": "proved", "theorems": ["C119_conflict_exact", "C119_conflict_genuine"], "note": ""},
{"property": "C120", "status": "proved", "theorems": ["C120_items", "C120_lookaheads"], "note": ""},
{"property": "C121", "status": "proved", "theorems": ["C121_textbook"], "note": ""},
{"property": "C122", "status": "proved", "theorems": ["C122_unreachable"], "note": ""},
{"property": "C123", "status": "proved", "theorems": ["C123_lookaheads", "C123_LALR1", "C123_bundled"], "note": ""},
{"property": "C124", "status": "proved", "theorems": ["C124_methods"], "note": ""},
{"property": "C125", "status": "proved", "theorems": ["C125_circle", "C125_no_return", "C125_unit", "C125_spins", "C125_spin_free", "C125_decided"], "note": ""},
{"property": "C126", "status": "proved", "theorems": ["C126_bounded", "C126_ranked", "C126_tokens", "C126_shape", "C126_viable", "C126_unbounded"], "note": ""},
{"property": "C127", "status": "proved", "theorems": ["C127_states", "C127_cells", "C127_shifts", "C127_gotos", "C127_needed"], "note": ""},
{"property": "C128", "status": "proved", "theorems": ["C128_closure", "C128_turns", "C128_states", "C128_exponential"], "note": ""},
{"property": "C129", "status": "proved", "theorems": ["C129_rows", "C129_back", "C129_tokens_rows", "C129_tokens", "C129_stack_text", "C129_stack"], "note": ""},
{"property": "C130", "status": "partial", "theorems": ["C130_canonical_refuted", "C130_prefixes", "C130_alike", "C130_canonical_partial", "C130_enough", "C130_count", "C130_slr"], "note": "False as a whole (witness: S -> x A b | x A c | y A B, where B begins with b or c: one LR(1) state is made twice). Proved when every FIRST set in use has one terminal; in general such doubles behave alike, and there are never fewer states than in the canonical collection."},
{"property": "C131", "status": "proved", "theorems": ["C131_answers", "C131_conflicts", "C131_LALR1"], "note": ""},
{"property": "C132", "status": "proved", "theorems": ["C132_lookaheads", "C132_accepts", "C132_values"], "note": ""},
{"property": "C133", "status": "proved", "theorems": ["C133_work", "C133_least"], "note": ""},
{"property": "C134", "status": "proved", "theorems": ["C134_items", "C134_moves", "C134_reduces", "C134_columns", "C134_accepts", "C134_no_others", "C134_slr"], "note": ""},
{"property": "C135", "status": "proved", "theorems": ["C135_clean", "C135_where", "C135_values"], "note": ""},
{"property": "C136", "status": "proved", "theorems": ["C136_folded", "C136_shift", "C136_reductions"], "note": ""},
{"property": "C137", "status": "proved", "theorems": ["C137_within", "C137_shift", "C137_reductions", "C137_fewer"], "note": ""},
{"property": "C138", "status": "proved", "theorems": ["C138_blank", "C138_word", "C138_ident", "C138_sign", "C138_none"], "note": ""},
{"property": "C139", "status": "proved", "theorems": ["C139_states"], "note": ""}
]}
