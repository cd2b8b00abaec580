{
 "claims": [
  {
   "property": "C01",
   "status": "proved",
   "theorems": [
    "C01_nfa_recognises_language"
   ],
   "note": ""
  },
  {
   "property": "C02",
   "status": "proved",
   "theorems": [
    "C02_from_regex_accepts_iff",
    "C02_from_regex_failures"
   ],
   "note": ""
  },
  {
   "property": "C03",
   "status": "proved",
   "theorems": [
    "C03_remove_overlap_covers"
   ],
   "note": ""
  },
  {
   "property": "C04",
   "status": "partial",
   "theorems": [
    "C04_disjoint_refuted",
    "C04_disjoint_refining_partial",
    "C04_refining_iff_partial",
    "C04_end_points"
   ],
   "note": "False of the code in general (witness proved); proved for range families in which the first character of a range that overlaps another without being nested is in no third range of more than one character (in particular nested or disjoint ranges). For any ranges: the end points are kept, and the pieces refine the ranges exactly if only equal pieces overlap."
  },
  {
   "property": "C05",
   "status": "proved",
   "theorems": [
    "C05_from_nfa_terminates",
    "C05_lexer_built_iff"
   ],
   "note": "For every NFA the library can build (from one regex or from a token list)."
  },
  {
   "property": "C06",
   "status": "partial",
   "theorems": [
    "C06_dfa_tracks_nfa_refuted",
    "C06_dfa_tracks_nfa_partial",
    "C06_dfa_sound"
   ],
   "note": "False in general (witness proved); proved whenever the pieces of C04 refine the ranges (in particular for nested-or-disjoint ranges), and soundness without that condition."
  },
  {
   "property": "C07",
   "status": "partial",
   "theorems": [
    "C07_test_language_refuted",
    "C07_test_characterised",
    "C07_test_viable_partial"
   ],
   "note": "False of the code (witnesses proved); what test decides is characterised instead."
  },
  {
   "property": "C08",
   "status": "proved",
   "theorems": [
    "C08_simulate_longest_run"
   ],
   "note": ""
  },
  {
   "property": "C09",
   "status": "partial",
   "theorems": [
    "C09_longest_match_refuted",
    "C09_longest_match_partial",
    "C09_split_refines_if"
   ],
   "note": "False in general (witness proved); proved whenever the pieces of C04 refine the ranges; a condition on the written ranges that implies this is proved."
  },
  {
   "property": "C10",
   "status": "partial",
   "theorems": [
    "C10_first_definition_refuted",
    "C10_first_definition_partial"
   ],
   "note": "False in general (witness proved); proved whenever the pieces of C04 refine the ranges."
  },
  {
   "property": "C11",
   "status": "proved",
   "theorems": [
    "C11_lex_terminates",
    "C11_no_empty_token"
   ],
   "note": ""
  },
  {
   "property": "C12",
   "status": "proved",
   "theorems": [
    "C12_lexemes_in_order"
   ],
   "note": ""
  },
  {
   "property": "C13",
   "status": "partial",
   "theorems": [
    "C13_nothing_dropped_refuted",
    "C13_what_is_dropped_partial"
   ],
   "note": "False of the code (witnesses proved); what is dropped is characterised whenever the pieces of C04 refine the ranges."
  },
  {
   "property": "C14",
   "status": "partial",
   "theorems": [
    "C14_value_refuted",
    "C14_value_exact",
    "C14_value_ascii_partial",
    "C14_no_value_no_panic"
   ],
   "note": "False for non-ASCII text (witnesses proved); proved for ASCII input. For any text the value and the panics are given exactly, in terms of UTF-8 bytes."
  },
  {
   "property": "C15",
   "status": "partial",
   "theorems": [
    "C15_maximal_munch_refuted",
    "C15_maximal_munch_partial",
    "C15_final_newline_partial",
    "C15_reference_unique"
   ],
   "note": "False at the end of the input (witness proved); proved: always an initial part of the reference, and equal to it when no end of the input is a proper beginning of a token."
  },
  {
   "property": "C16",
   "status": "partial",
   "theorems": [
    "C16_own_index_refuted",
    "C16_convert_characterised",
    "C16_own_index_partial"
   ],
   "note": "False when a literal and a regex have the same text (witness proved); the index given is characterised in general, and the claim is proved when no text is both."
  },
  {
   "property": "C17",
   "status": "partial",
   "theorems": [
    "C17_literal_exact",
    "C17_literal_first_refuted",
    "C17_literal_first_partial"
   ],
   "note": "A literal's definition matches exactly its text; precedence is false in general (witness proved) and proved whenever the pieces of C04 refine the ranges."
  },
  {
   "property": "C18",
   "status": "partial",
   "theorems": [
    "C18_token_table",
    "C18_bijection_refuted",
    "C18_bijection_partial"
   ],
   "note": "Table contents and order proved for every AST; the bijection fails for ASTs using the Eof symbol (witness proved), which grammar files cannot express, and is proved for the rest."
  },
  {
   "property": "C19",
   "status": "proved",
   "theorems": [
    "C19_productions"
   ],
   "note": ""
  },
  {
   "property": "C20",
   "status": "proved",
   "theorems": [
    "C20_first_correct",
    "C20_first_empty",
    "C20_epsilon_refuted"
   ],
   "note": "The property is about epsilon-free grammars, all that grammar files can express; a witness shows it fails with epsilon."
  },
  {
   "property": "C21",
   "status": "partial",
   "theorems": [
    "C21_first_terminates_refuted",
    "C21_fuel_exact",
    "C21_first_returns_iff_partial",
    "C21_undefined_panics"
   ],
   "note": "False for left-recursive grammars (witness proved, for every recursion depth); exact condition proved for epsilon-free grammars."
  },
  {
   "property": "C22",
   "status": "proved",
   "theorems": [
    "C22_closure_least",
    "C22_closure_standard"
   ],
   "note": "With the code's own FIRST for every grammar; with the standard FIRST for epsilon-free grammars (C20)."
  },
  {
   "property": "C23",
   "status": "proved",
   "theorems": [
    "C23_goto",
    "C23_goto_standard"
   ],
   "note": ""
  },
  {
   "property": "C24",
   "status": "proved",
   "theorems": [
    "C24_collection",
    "C24_collection_standard",
    "C24_returns_iff",
    "C24_terminates"
   ],
   "note": ""
  },
  {
   "property": "C25",
   "status": "proved",
   "theorems": [
    "C25_merge_partition",
    "C25_merge_returns",
    "C25_hash_irrelevant"
   ],
   "note": "For hash functions without collisions on the cores met; with a collision the debug assertion panics, also proved."
  },
  {
   "property": "C26",
   "status": "partial",
   "theorems": [
    "C26_states_are_lalr",
    "C26_entries_justified",
    "C26_complete_items_reduce",
    "C26_no_silent_resolution_refuted",
    "C26_no_silent_resolution_partial"
   ],
   "note": "All but the last clause proved for epsilon-free grammars; a shift/reduce conflict can be silently resolved when the shift's target is not found (witness proved), and never otherwise."
  },
  {
   "property": "C27",
   "status": "partial",
   "theorems": [
    "C27_lalr_grammar_gets_tables_refuted",
    "C27_tables_built_iff",
    "C27_lalr_grammar_gets_tables_partial",
    "C27_conflict_meaning_partial",
    "C27_tables_by_derivations_partial"
   ],
   "note": "False: two items with the same terminal after the dot are reported as a conflict (witness proved); the exact condition is proved, and for productive grammars conflicts and the condition are also given by rightmost derivations."
  },
  {
   "property": "C28",
   "status": "partial",
   "theorems": [
    "C28_transitions_refuted",
    "C28_transitions_iff",
    "C28_transitions_partial",
    "C28_closed_of_distinct_cores",
    "C28_present_iff",
    "C28_pairs_partial",
    "C28_two_partial"
   ],
   "note": "False: the goto of a merged state is looked up by equality of sets and may be missing (witness proved). The exact condition is proved, also in terms of the LR(1) states that were merged. None is missing if any two LR(1) states with the same core are together one of the states or all with that core, in particular if no core has more than two states."
  },
  {
   "property": "C29",
   "status": "proved",
   "theorems": [
    "C29_soundness",
    "C29_soundness_any_name_refuted"
   ],
   "note": "For grammars that use neither EOF nor the augmented start name (S followed by a quote) in a body, all that grammar files can express; a witness shows the latter condition is needed."
  },
  {
   "property": "C30",
   "status": "partial",
   "theorems": [
    "C30_completeness_refuted",
    "C30_completeness_partial",
    "C30_accepts_exactly_the_sentences_partial",
    "C30_accepts_iff"
   ],
   "note": "False when transitions are missing from the tables (C28; witness proved); proved when they are all there. For any tables: accepted iff some parse tree has all its transitions in the tables."
  },
  {
   "property": "C31",
   "status": "partial",
   "theorems": [
    "C31_diverge_exact",
    "C31_terminates_refuted",
    "C31_terminates_partial",
    "C31_acyclic_terminates_partial"
   ],
   "note": "False: a cycle of unit reductions (witness proved to run for ever); proved when no transition is missing, and for grammars in which no used symbol derives itself. The model's Diverge is exactly non-termination."
  },
  {
   "property": "C32",
   "status": "partial",
   "theorems": [
    "C32_failures",
    "C32_only_wrong_tokens_refuted",
    "C32_only_wrong_tokens_partial"
   ],
   "note": "Stack underflow and undefined productions never happen; an empty GOTO entry can be met (witness proved), not when no transition is missing."
  },
  {
   "property": "C33",
   "status": "partial",
   "theorems": [
    "C33_unambiguous_refuted",
    "C33_unambiguous_partial",
    "C33_moving_tree_unique"
   ],
   "note": "False: tables are returned for an ambiguous grammar (witness proved); proved when no transition is missing. For any tables: at most one tree has all its transitions in the tables."
  },
  {
   "property": "C34",
   "status": "partial",
   "theorems": [
    "C34_undefined_no_tables",
    "C34_undefined_ends",
    "C34_undefined_panics_refuted",
    "C34_undefined_panics_partial"
   ],
   "note": "No tables are ever produced: it panics looking up the name, or FIRST recurses for ever (witness proved; the reason is given), and it panics when that cannot happen."
  },
  {
   "property": "C35",
   "status": "proved",
   "theorems": [
    "C35_option_usize_faithful"
   ],
   "note": ""
  },
  {
   "property": "C36",
   "status": "partial",
   "theorems": [
    "C36_decides_partial",
    "C36_decides_reference_partial",
    "C36_accepts_iff_partial",
    "C36_file_grammars",
    "C36_from_text_partial",
    "C36_end_to_end_refuted",
    "C36_rejects_garbage_refuted"
   ],
   "note": "False: a sentence is rejected, a text makes the parser run for ever, and trailing characters no symbol can read are ignored (witnesses proved). Acceptance implies a sentence always; equivalence is proved when no transition is missing and no literal has the text of a regex. When the pieces refine the ranges, acceptance and the reductions are characterised exactly, for every text: with missing transitions, cut-off texts and characters outside ASCII."
  },
  {
   "property": "C37",
   "status": "partial",
   "theorems": [
    "C37_actions_partial",
    "C37_unique",
    "C37_names_refuted"
   ],
   "note": "For grammar files whose texts stay inside their quotes, whose code can be read and whose names do not clash with generated ones; a non-terminal called Action1 declares that type twice (witness proved)."
  },
  {
   "property": "C38",
   "status": "partial",
   "theorems": [
    "C38_mirrored",
    "C38_position_partial",
    "C38_two_named_refuted"
   ],
   "note": "False for every rule with two named symbols: the errors are attached in reverse order (proved exactly); right with at most one named symbol."
  },
  {
   "property": "C39",
   "status": "partial",
   "theorems": [
    "C39_constraint_partial",
    "C39_regex_refuted"
   ],
   "note": "False for every named regex, which gets `extendsstring`; proved for named literals and non-terminals."
  },
  {
   "property": "C40",
   "status": "proved",
   "theorems": [
    "C40_tables",
    "C40_unique"
   ],
   "note": ""
  },
  {
   "property": "C41",
   "status": "partial",
   "theorems": [
    "C41_tables_partial",
    "C41_kind_partial",
    "C41_tables_refuted",
    "C41_kind_refuted"
   ],
   "note": "For lexers whose token names stay inside the quotes the generator writes them in; names are not escaped, so a quote breaks the text and a backslash is lost (witnesses proved). For the reference grammar the model writes the committed file byte for byte."
  },
  {
   "property": "C42",
   "status": "partial",
   "theorems": [
    "C42_lexers_agree_partial",
    "C42_any_text_partial",
    "C42_reads_partial",
    "C42_range_refuted",
    "C42_ascii_refuted",
    "C42_value_refuted"
   ],
   "note": "Lock-step simulation on the generated tables, for ASCII inputs and lexers that fit the arithmetic tables; for any text of characters within the tables the pieces of text found agree, but the Rust lexer cuts its values at byte positions; a range starting beyond the tables matches every character, and non-ASCII text makes the Rust lexer panic or return other values (witnesses proved). When the pieces refine the ranges, the tokens and the position of the error are also given in terms of the definitions alone."
  },
  {
   "property": "C43",
   "status": "partial",
   "theorems": [
    "C43_parsers_agree_partial",
    "C43_accepts_iff_partial",
    "C43_rejects_partial",
    "C43_sound",
    "C43_depth_refuted"
   ],
   "note": "False beyond 49 steps, where the type-level parser gives up (witness proved); up to there acceptance, the reductions and the value agree. Acceptance implies that the Rust parser accepts, with no condition on the tokens' values. For grammars whose generated file can be read (C47) and rule code of the declared types."
  },
  {
   "property": "C44",
   "status": "proved",
   "theorems": [
    "C44_compare",
    "C44_arithmetic",
    "C44_lists",
    "C44_substring",
    "C44_beyond_tables",
    "C44_never"
   ],
   "note": ""
  },
  {
   "property": "C45",
   "status": "proved",
   "theorems": [
    "C45_content",
    "C45_panics_iff"
   ],
   "note": ""
  },
  {
   "property": "C46",
   "status": "partial",
   "theorems": [
    "C46_escapes_refuted",
    "C46_escapes_partial"
   ],
   "note": "False: escapes are kept verbatim (witness proved); right exactly when there is nothing to undo."
  },
  {
   "property": "C47",
   "status": "partial",
   "theorems": [
    "C47_tables_partial",
    "C47_kinds_iff",
    "C47_kinds_refuted",
    "C47_quotes_refuted"
   ],
   "note": "For texts that stay inside their quotes, readable code and tokens of different kinds; a literal and a regex with the same text, a literal EOF, or a literal with a single quote break the file (witnesses proved)."
  },
  {
   "property": "C48",
   "status": "partial",
   "theorems": [
    "C48_order_refuted",
    "C48_order_partial",
    "C48_kinds_partial"
   ],
   "note": "False for symbols without a text of their own (witness proved); proved for the others. Nothing in the repository uses this order."
  },
  {
   "property": "C49",
   "status": "partial",
   "theorems": [
    "C49_characters",
    "C49_text",
    "C49_complete_refuted"
   ],
   "note": "The exact contents are proved; tabs, carriage returns and everything beyond Latin-1 are missing."
  },
  {
   "property": "C50",
   "status": "partial",
   "theorems": [
    "C50_pipelines_agree_partial",
    "C50_any_text_partial",
    "C50_accepts_iff_partial",
    "C50_garbage_refuted"
   ],
   "note": "False for a sentence followed by a character no token starts with (witness proved), and beyond 49 steps (C43); otherwise proved for ASCII texts that fit the arithmetic tables, and for any text within them up to the Rust lexer's panic on bytes inside characters."
  },
  {
   "property": "C51",
   "status": "proved",
   "theorems": [
    "C51_reading",
    "C51_unambiguous"
   ],
   "note": "lalrpop is trusted to implement the grammar; the committed grammar file is read as the AST used in the other examples."
  },
  {
   "property": "C52",
   "status": "proved",
   "theorems": [
    "C52_expressible",
    "C52_file_ast"
   ],
   "note": ""
  },
  {
   "property": "C53",
   "status": "partial",
   "theorems": [
    "C53_layout_refuted",
    "C53_layout_partial",
    "C53_same_tokens_partial"
   ],
   "note": "False: code runs to the last closing parenthesis of its line, so putting two alternatives on one line silently drops one, and a rule on one line cannot be read (witnesses proved). The layouts that are read as meant are characterised exactly."
  },
  {
   "property": "C54",
   "status": "partial",
   "theorems": [
    "C54_any_text_refuted",
    "C54_any_text_partial"
   ],
   "note": "False: the regex \\d, a literal of one backslash and a rule called r cannot be written; what can be written is characterised exactly."
  },
  {
   "property": "C55",
   "status": "partial",
   "theorems": [
    "C55_reported",
    "C55_first_wrong_partial",
    "C55_late_refuted",
    "C55_early_refuted"
   ],
   "note": "Proved for grammars in which every symbol derives something (not late) and tables without missing transitions (not early); both conditions are needed (witnesses proved)."
  },
  {
   "property": "C56",
   "status": "partial",
   "theorems": [
    "C56_listed_can_follow_refuted",
    "C56_all_listed_refuted",
    "C56_exact_partial",
    "C56_after_reading_partial",
    "C56_listed_meaning_partial"
   ],
   "note": "False when LR(1) states are merged, in both directions (witnesses proved); proved exactly when none are merged, and with merged states half of it just after a token was read. What the list says in every productive grammar: exactly the tokens that can come next after some prefix with the state on top of the stack."
  },
  {
   "property": "C57",
   "status": "partial",
   "theorems": [
    "C57_value_partial",
    "C57_accepts_iff_partial",
    "C57_rest_refuted"
   ],
   "note": "False: a beginning of a token at the end of the text is ignored, so in the committed grammar (add 12)ad has the type of (add 12) (witness proved). The value is proved for all texts that fit the arithmetic tables; acceptance is characterised exactly when the pieces refine the ranges, up to 49 steps."
  },
  {
   "property": "C58",
   "status": "partial",
   "theorems": [
    "C58_files",
    "C58_dfa",
    "C58_tables_partial",
    "C58_collision_refuted",
    "C58_parser",
    "C58_counter",
    "C58_for_ever_refuted",
    "C58_reading",
    "C58_lexer",
    "C58_library_partial"
   ],
   "note": "False when two cores have the same hash: the release build then drops items without notice and rejects a sentence (witness proved, for a hash function made for it). False also beyond 2147483647 iterations of the parser, where the counter of the debug build overflows: it panics where the release build runs for ever (witness proved). Otherwise the builds agree, for every input: on every text read as a grammar file, every list of tokens, every parser built and every text parsed, up to a length given by the counter."
  },
  {
   "property": "C59",
   "status": "proved",
   "theorems": [
    "C59_lexer",
    "C59_tables",
    "C59_parser",
    "C59_order",
    "C59_failure_refuted",
    "C59_start_refuted"
   ],
   "note": "Proved for every permutation and every injective renaming. What does depend on the order, proved by witnesses: how building fails (running for ever or panicking) when it fails for two reasons, and which of several rules marked as start is the start symbol."
  },
  {
   "property": "C60",
   "status": "partial",
   "theorems": [
    "C60_collection_partial",
    "C60_states_partial",
    "C60_lookaheads_partial",
    "C60_walk_partial",
    "C60_unproductive_refuted"
   ],
   "note": "Proved for all grammars in which every used symbol derives some terminals; for others it is false, by a witness. That the tables lead along every viable prefix needs all transitions to be there, which C28 shows can fail."
  },
  {
   "property": "C61",
   "status": "partial",
   "theorems": [
    "C61_reachable_refuted",
    "C61_distinguishable_refuted",
    "C61_live_refuted",
    "C61_states_useful_partial"
   ],
   "note": "False: ranges that overlap without being nested leave a state that no text reaches, an empty class leaves a state from which nothing is accepted, and ac|bc has two states that accept the same texts (witnesses proved). Proved for regexes without empty parts whose ranges are cut into pieces that refine them: every state is reached, every state but the start leads to the end of a token, and different states are different sets of NFA states."
  },
  {
   "property": "C62",
   "status": "partial",
   "theorems": [
    "C62_tables",
    "C62_parser",
    "C62_text_refuted",
    "C62_text_partial"
   ],
   "note": "Tables and parser: proved, whatever the added rules are (left-recursive, using names without rules). False of texts: the literal of a rule that is never used takes the lexeme from the regex of one that is, and the text is rejected (witness proved). Proved for texts when the added rules have no new literals and regexes."
  },
  {
   "property": "C63",
   "status": "partial",
   "theorems": [
    "C63_lex_quadratic",
    "C63_lex_linear_refuted",
    "C63_parse_linear_partial",
    "C63_lexer_states",
    "C63_dfa_polynomial_refuted"
   ],
   "note": "Lexing is quadratic: n(n+1)/2 iterations at most for n characters, and the tokens a and a*b need one less for every n. Parsing: at most (2n+1)(p+2) steps for n tokens and p productions if it ends (C31), and the stack never has more than n+1 entries. The NFA has a fixed number of states for each part of a regex (linear); the DFA at most 2^n, and at least 2^(k+1) for (a|b)*a(a|b)^k."
  },
  {
   "property": "C64",
   "status": "partial",
   "theorems": [
    "C64_white_space_refuted",
    "C64_more_space_partial",
    "C64_insert_partial",
    "C64_any_text_partial",
    "C64_parse_partial"
   ],
   "note": "For ASCII texts and definitions with no white space in them: any non-empty white space can stand for any other, anywhere, and it can be added at every place between the tokens returned (and after the last if the text is read to the end); parsing returns the same. False with a definition like \"a b\", where the lexer drops the rest of the text (C13), and for texts that are not ASCII, whose values are cut at the wrong bytes (C14)."
  },
  {
   "property": "C65",
   "status": "partial",
   "theorems": [
    "C65_separate_refuted",
    "C65_separate_partial",
    "C65_words_partial"
   ],
   "note": "For ASCII texts and definitions with no white space in them: true if the first text, with the white space, is read to the end, for any number of texts; otherwise what follows is ignored. False with a definition like \"a b\", for a text whose end is dropped when it stands alone (C13) or always, and for texts that are not ASCII (C14)."
  },
  {
   "property": "C66",
   "status": "partial",
   "theorems": [
    "C66_states",
    "C66_polynomial_refuted"
   ],
   "note": "The bounds 2^(number of items) on the states and states times symbols on the entries are proved. Growth is not polynomial: for every k a grammar with 2k + 7 productions of at most two symbols has at least 2^(k+1) states, whatever collision-free hash is used."
  },
  {
   "property": "C67",
   "status": "partial",
   "theorems": [
    "C67_parser_file_iff",
    "C67_lexer_file",
    "C67_outputs_iff",
    "C67_always_refuted"
   ],
   "note": "The exact condition is proved from the text of the grammar file on. For rules that no file gives, the parser file is written exactly when no symbol is epsilon, lacks the name its brackets ask for, or has a name inside a name; a witness of each for which everything else is built."
  },
  {
   "property": "C68",
   "status": "partial",
   "theorems": [
    "C68_explained_partial",
    "C68_text_partial",
    "C68_late_refuted"
   ],
   "note": "All results of the parser are explained, for the grammar files of C47 and whatever the code, types and values; for texts, the error for a token is stated over the texts themselves. That what is shown can be completed needs every symbol to derive something (false otherwise: witness), that the token cannot come next needs tables that miss no transition (C55)."
  },
  {
   "property": "C69",
   "status": "partial",
   "theorems": [
    "C69_print_parse_partial",
    "C69_written_iff_partial",
    "C69_print_type_partial",
    "C69_print_refuted"
   ],
   "note": "True for ASCII texts with white space between the leaves and none in the texts, if the pieces refine the ranges (C09), no transition the tree needs is missing (C28) and every leaf is written as a text of its own (no text of a symbol before it); the type-level version up to 49 steps. A tree can be written exactly if every leaf has a text of its own. False otherwise: a literal can hide a regex, texts run together without white space, a literal with a blank in it is read over the white space between two others, and a literal that is not ASCII makes the lexer panic (witnesses proved)."
  },
  {
   "property": "C70",
   "status": "partial",
   "theorems": [
    "C70_tables",
    "C70_parser",
    "C70_lexer_partial",
    "C70_text_partial",
    "C70_order_refuted",
    "C70_keyword_refuted",
    "C70_clash_refuted",
    "C70_ranges_refuted"
   ],
   "note": "Tables and parsing of token sequences in full (grammars without empty bodies). For texts: if corresponding terminals match the same texts, of two that share a text the same one comes first, no literal is written like a regex (C16) and the pieces refine the ranges in both (C09). False otherwise: parentheses around a regex change which of two regexes wins, since they are ordered by how they are written; a keyword written as a regex loses to identifiers; a regex written like a literal takes its place; and an equivalent range can break or mend the lexer (witnesses proved)."
  },
  {
   "property": "C71",
   "status": "partial",
   "theorems": [
    "C71_small_partial",
    "C71_exact_partial",
    "C71_text_partial",
    "C71_infinite_refuted",
    "C71_lisp_refuted"
   ],
   "note": "False: what gets a value has a parse tree with at most 49 nodes, so at most 48 tokens, in every grammar and whatever the code; so every grammar with sentences of every length has sentences without a value, and in the committed grammar 20 tokens are the most. Up to 49 nodes every sentence that the Rust parser accepts gets its value if the checks of the actions pass; beyond, the type is the depth message."
  },
  {
   "property": "C72",
   "status": "partial",
   "theorems": [
    "C72_comment_refuted",
    "C72_meaning_refuted",
    "C72_readme_refuted"
   ],
   "note": "False, for every file and every line: the file with the comment cannot be read, unless the line begins inside quotes, where the comment becomes a part of the literal. So README's own example cannot be read; without its comment it can, and its parser accepts README's text. C72_meaning_refuted is for comments without quotes and backslashes."
  },
  {
   "property": "C73",
   "status": "partial",
   "theorems": [
    "C73_tables",
    "C73_terminates",
    "C73_trees",
    "C73_inner_transitions",
    "C73_sentences_partial",
    "C73_sentences_refuted",
    "C73_useless_refuted"
   ],
   "note": "Tables, termination, one tree and no sentence inside another: proved. That all sentences are accepted is false (C28; witness proved): a transition into a rule can be missing, though none behind the first symbol of a rule is; with them all, exactly the sentences are accepted. Without the condition on used symbols the tables need not be built (witness proved)."
  },
  {
   "property": "C74",
   "status": "partial",
   "theorems": [
    "C74_common_refuted",
    "C74_text_refuted",
    "C74_start_refuted",
    "C74_one_place_partial"
   ],
   "note": "False, and in every case: of two alternatives that are the same up to and with some terminal, none occurs in any parse the parser accepts, whatever the tables, and if a sentence can begin with them (common beginning: the terminal alone) tables are never built. True where every terminal is written at one place of the grammar only: a conflict-free grammar gets tables."
  },
  {
   "property": "C75",
   "status": "proved",
   "theorems": [
    "C75_closed",
    "C75_exact",
    "C75_right_linear",
    "C75_left_stack",
    "C75_right_stack",
    "C75_file"
   ],
   "note": "For grammars without empty bodies, all that grammar files can express."
  },
  {
   "property": "C76",
   "status": "partial",
   "theorems": [
    "C76_kept_refuted",
    "C76_text_refuted",
    "C76_kept_partial",
    "C76_text_partial"
   ],
   "note": "False: the further rule can make a transition of the old ones disappear from the tables (C28), and a new literal takes lexemes from a regex (witnesses proved). True of token sequences when no transition is missing from the larger grammar's tables, and then also of texts when there are no new literals and regexes."
  },
  {
   "property": "C77",
   "status": "partial",
   "theorems": [
    "C77_accepts",
    "C77_unambiguous",
    "C77_type_partial",
    "C77_readme_refuted"
   ],
   "note": "The Rust parser: proved for all texts; what stands after the list and begins with no token is ignored, and this is part of the statement. The type: exactly the lists that need less than 50 steps (C71 shows there are longer ones), for texts within the limits of C42. The README's grammar begins with a comment and is not read (witness)."
  },
  {
   "property": "C78",
   "status": "partial",
   "theorems": [
    "C78_no_tables",
    "C78_unused_partial",
    "C78_unused_text_partial",
    "C78_unused_refuted",
    "C78_todo_refuted"
   ],
   "note": "No tables if m is empty or ends with a name: proved. Never used if moreover m may begin with a token: proved, for token sequences and for texts. In the remaining case (m begins with a name and ends with a token) it is false, by a witness in which a missing transition (C28) resolves the conflict. The grammar of todo.md as text: building never ends."
  },
  {
   "property": "C79",
   "status": "partial",
   "theorems": [
    "C79_same_sentences",
    "C79_tables_partial",
    "C79_parses_partial",
    "C79_text_partial",
    "C79_tables_refuted"
   ],
   "note": "The language is the same: proved. Tables: proved if nothing left-recursive (and nothing without rules) begins what stands behind a name or a renamed token; false otherwise, since building then never ends, by a witness that had tables before. Acceptance implies a sentence and tree of the old grammar always; the converse if no transition is missing (C28)."
  },
  {
   "property": "C80",
   "status": "partial",
   "theorems": [
    "C80_tokens_stay_partial",
    "C80_ignored_partial",
    "C80_hidden",
    "C80_report",
    "C80_error_text_partial",
    "C80_tokens_refuted",
    "C80_error_text_refuted"
   ],
   "note": "All tokens but the last: proved for all definitions and texts; false of the last one. Nothing changes after a wrong character: proved for the definitions of C13 and, for characters of no definition, for all. The report at a token is the same whatever follows: proved for token sequences, and for texts if the wrong token is not the last one; false otherwise, by witnesses."
  },
  {
   "property": "C81",
   "status": "proved",
   "theorems": [
    "C81_file_end",
    "C81_lexer_end",
    "C81_tables_end",
    "C81_tables_outcome",
    "C81_tables_collision",
    "C81_tables_order_refuted"
   ],
   "note": "For texts, for the lexer of any grammar and for the tables of any grammar without epsilon. The outcome follows from the grammar, except where a name is undefined and left recursion is met: then it is one of the two, and which one depends on the order of the symbols, by a witness."
  },
  {
   "property": "C82",
   "status": "proved",
   "theorems": [
    "C82_text_end",
    "C82_tokens_end",
    "C82_closed_end"
   ],
   "note": "Without conditions on the grammar file, the hash or the text. How the text is split is the reading of C11-C15, which is maximal munch when the pieces refine the ranges; every outcome arises, by witnesses."
  },
  {
   "property": "C83",
   "status": "proved",
   "theorems": [
    "C83_tables",
    "C83_parse",
    "C83_file"
   ],
   "note": "Grammars of the given form; every terminal is written at one place. Collision-free hashing is needed only for the tables to be made (C25); C83_parse holds for all tables that are made. C83_file needs the regexes of atoms to be accepted by the regex parser."
  },
  {
   "property": "C84",
   "status": "proved",
   "theorems": [
    "C84_tables",
    "C84_parse",
    "C84_file",
    "C84_nonassoc_refuted",
    "C84_levels_refuted"
   ],
   "note": "Grammars of the given form. Collision-free hashing is needed only for the tables to be made (C25); C84_parse holds for all tables that are made. C84_file needs the regexes of terminals to be accepted by the regex parser. The two refutations are the last sentence of the statement."
  },
  {
   "property": "C85",
   "status": "partial",
   "theorems": [
    "C85_type_partial",
    "C85_reductions"
   ],
   "note": "The number of reductions in full. The type: exactly the expressions of less than 50 tokens and reductions (C71), in texts within the limits of C42, when the pieces refine the ranges (C09); a beginning of a token after the expression is ignored (C57)."
  },
  {
   "property": "C86",
   "status": "proved",
   "theorems": [
    "C86_report",
    "C86_linear",
    "C86_states",
    "C86_brackets"
   ],
   "note": "The report needs an expression of every sort and level to exist (as in C55)."
  },
  {
   "property": "C87",
   "status": "proved",
   "theorems": [
    "C87_print",
    "C87_type"
   ],
   "note": "Conditions on the texts as in C69, limits of the type level as in C42 and C71."
  },
  {
   "property": "C88",
   "status": "proved",
   "theorems": [
    "C88_tables",
    "C88_parse",
    "C88_file",
    "C88_ends_refuted",
    "C88_tails_refuted"
   ],
   "note": "Lists are not empty and left-recursive; a kind of list has one closing terminal, and C88_ends_refuted shows that this is needed. An operator that ends with another sort has one context, and C88_tails_refuted shows that this is needed."
  },
  {
   "property": "C89",
   "status": "partial",
   "theorems": [
    "C89_type_partial",
    "C89_reductions"
   ],
   "note": "The number of reductions in full. The type: exactly the expressions of less than 50 tokens and reductions (C71), in texts within the limits of C42, when the pieces refine the ranges (C09); a beginning of a token after the expression is ignored (C57)."
  },
  {
   "property": "C90",
   "status": "proved",
   "theorems": [
    "C90_report",
    "C90_linear",
    "C90_states"
   ],
   "note": "The bound on the steps is (K+3) for each token when no level is above K. That the report prints position and token is C55."
  },
  {
   "property": "C91",
   "status": "proved",
   "theorems": [
    "C91_print",
    "C91_type"
   ],
   "note": "Conditions on the texts as in C69, limits of the type level as in C42 and C71."
  },
  {
   "property": "C92",
   "status": "proved",
   "theorems": [
    "C92_missing_costs",
    "C92_finds_all_iff",
    "C92_accepts_all_iff",
    "C92_decided",
    "C92_sentences_refuted",
    "C92_unproductive_refuted"
   ],
   "note": "The refuted statements show that both conditions are needed: with symbols that derive nothing a gap may not matter (w92'), and all sentences may be accepted in spite of a gap if some have two trees (w92)."
  },
  {
   "property": "C93",
   "status": "proved",
   "theorems": [
    "C93_settled",
    "C93_checked",
    "C93_gap_costs"
   ],
   "note": "The committed grammar passes the check (C93_nonvacuous_lisp), w28 does not (C93_nonvacuous_gap)."
  },
  {
   "property": "C94",
   "status": "proved",
   "theorems": [
    "C94_checked"
   ],
   "note": "The committed grammar passes the check (C94_nonvacuous)."
  },
  {
   "property": "C95",
   "status": "partial",
   "theorems": [
    "C95_accepted",
    "C95_refused",
    "C95_output_tells",
    "C95_file",
    "C95_length",
    "C95_stack",
    "C95_rules_tell_partial",
    "C95_rules_tell_refuted",
    "C95_forged_refuted"
   ],
   "note": "For all grammars in which the end of the text is no symbol and the added start symbol is new; C95_file for grammar files and texts.  With spaces in literals the lines that name rules do not tell the text (C95_rules_tell_refuted), with line ends in them they name rules that do not exist (C95_forged_refuted)."
  },
  {
   "property": "C96",
   "status": "partial",
   "theorems": [
    "C96_kind",
    "C96_lowered",
    "C96_file_partial",
    "C96_file_refuted"
   ],
   "note": "The definitions of a literal differ: ast.rs:60-86 gives a token without a value and reads the text of the literal as a regular expression without escaping it (C96_file_refuted).  Nothing in the program calls that function."
  },
  {
   "property": "C97",
   "status": "proved",
   "theorems": [
    "C97_heights",
    "C97_accepted",
    "C97_first_recursive",
    "C97_bounded",
    "C97_unbounded",
    "C97_bounded_iff",
    "C97_decided",
    "C97_file",
    "C97_texts",
    "C97_right_recursion_refuted"
   ],
   "note": "C97_right_recursion_refuted is a case of C97_unbounded: S -> a S | b has no bound."
  }
 ]
}
