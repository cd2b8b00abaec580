{"id": "C01", "title": "NFA built from a regex recognises exactly the regex's language", "statement": "For every regex that NFA::from_regex accepts without panicking and every string s, NFA::from_regex(r).simulate(s) returns true iff s is in the language of r, whatever order the HashSets iterate in.", "quantifier": "all regex syntax trees, all strings, all hash-set iteration orders", "why_tests_cant": "infinitely many regexes and strings; hash-set order is randomised per process", "anchors": ["src/lex/nfa.rs: NFA::from_regex, compile, compile_match, push_edge, simulate, move_state, epsilon_closure"]}
{"id": "C02", "title": "from_regex rejects exactly the unsupported regexes", "statement": "NFA::from_regex panics iff the regex contains an anchor, a word boundary, a counted repetition, or an empty sub-expression in any position other than the (possibly grouped) whole regex; it never fails for another reason.", "quantifier": "all regex syntax trees", "why_tests_cant": "the tests only compile supported regexes; a panic on some nesting can only be excluded by case analysis over all trees", "anchors": ["src/lex/nfa.rs: NFA::compile, NFA::from_regex", "src/option_usize.rs: OptionUsize::unwrap"]}
{"id": "C03", "title": "Range splitting keeps exactly the covered characters and always terminates", "statement": "For every finite set of character ranges, remove_overlap terminates, none of its internal assertions fires, it returns only non-empty ranges and a character is covered by some output range iff it is covered by some input range.", "quantifier": "all finite sets of ranges, all code points", "why_tests_cant": "recursion that grows the vector it scans; termination and coverage need a measure argument over every input", "anchors": ["src/lex/dfa.rs: remove_overlap, add_range", "src/lex/nfa.rs: Match::intersects, Match::is_disjoint"]}
{"id": "C04", "title": "Range splitting yields disjoint ranges that refine every input range", "statement": "For every finite set of character ranges, the ranges returned by remove_overlap are pairwise disjoint and each of them is either contained in or disjoint from each input range.", "quantifier": "all finite sets of ranges", "why_tests_cant": "needs every combination of overlapping ranges; a hand-picked sample misses the failing shapes", "anchors": ["src/lex/dfa.rs: remove_overlap, add_range"]}
{"id": "C05", "title": "DFA construction terminates for every NFA", "statement": "DFA::from_nfa returns for every NFA (the subset construction reaches a fixed point), with one DFA state per distinct set of NFA states.", "quantifier": "all NFAs", "why_tests_cant": "a worklist loop whose bound is exponential; no test can show that it always stops", "anchors": ["src/lex/dfa.rs: DFA::from_nfa, DFABuilder::build, DFABuilder::epsilon_closure, DFABuilder::move_set"]}
{"id": "C06", "title": "The DFA tracks the NFA on every input", "statement": "For every NFA and every string, following the DFA's edges from its start state succeeds iff the NFA has some live state after that string, and then the set of NFA states recorded for the DFA state reached is exactly the set of NFA states reachable on that string; at most one edge of a DFA state matches a character.", "quantifier": "all NFAs, all strings", "why_tests_cant": "all strings through all automata", "anchors": ["src/lex/dfa.rs: DFABuilder::build, DFA::edge_iter, dfa_to_nfa"]}
{"id": "C07", "title": "DFA::test accepts exactly the regex's language", "statement": "For every supported regex r and string s, DFA::from_nfa(NFA::from_regex(r)).test(s) is true iff s is in the language of r.", "quantifier": "all supported regexes, all strings", "why_tests_cant": "the unit tests check a few accepted and rejected strings per regex; the claim is about all strings", "anchors": ["src/lex/dfa.rs: DFA::test, DFA::simulate"]}
{"id": "C08", "title": "DFA::simulate reports how far the automaton can run", "statement": "For every NFA-derived DFA and every string, simulate(s) returns Some(n) with n > 0 exactly when n is the length in characters of the longest prefix of s along which the DFA has edges, and None exactly when not even the first character can be consumed.", "quantifier": "all regex lists, all strings", "why_tests_cant": "ranges over all automata and strings", "anchors": ["src/lex/dfa.rs: DFA::simulate"]}
{"id": "C09", "title": "Every token is a longest match", "statement": "For every list of token definitions and every input, each token returned by Lex::lex is the longest non-empty prefix of the input remaining at its start that matches any token's regex.", "quantifier": "all token lists, all inputs, every emitted token", "why_tests_cant": "maximal munch needs every prefix of every input against every regex", "anchors": ["src/lex/lex.rs: Lex::lex, Lex::from_tokens", "src/lex/nfa.rs: NFA::lex_nfa_template, shift_state_and_edges"]}
{"id": "C10", "title": "Ties go to the first token definition", "statement": "When several token regexes match the same longest prefix, the token emitted is the one that comes first in the list given to Lex::from_tokens.", "quantifier": "all token lists, all inputs", "why_tests_cant": "precedence between arbitrary overlapping regexes; the test tries three orders of three regexes on one input", "anchors": ["src/lex/lex.rs: Lex::lex (accepting_dfa_to_nfa, nfa_set.first())", "src/lex/dfa.rs: DFA::accepting_states"]}
{"id": "C11", "title": "Lexing always terminates and never produces an empty token", "statement": "Lex::lex returns for every lexer and every input; every token it emits consumed at least one character, even when a token's regex matches the empty string.", "quantifier": "all token lists, all inputs", "why_tests_cant": "the main loop moves its cursor backwards; termination for every input needs a measure", "anchors": ["src/lex/lex.rs: Lex::lex", "src/lex/dfa.rs: DFABuilder::build (start state absent from dfa_to_nfa)"]}
{"id": "C12", "title": "Token lexemes appear in order, separated only by skipped whitespace", "statement": "The input always equals (whitespace, lexeme)* followed by an unlexed rest: the lexemes of the returned tokens occur in the input in order without overlap, and everything between them is spaces or newlines.", "quantifier": "all token lists, all inputs", "why_tests_cant": "all inputs; no dropped or duplicated characters between tokens", "anchors": ["src/lex/lex.rs: Lex::lex, Lex::is_whitespace"]}
{"id": "C13", "title": "No part of the input is silently dropped", "statement": "If Lex::lex returns normally then the whole input was consumed: every non-whitespace character of the input belongs to the lexeme of some returned token.", "quantifier": "all token lists, all inputs", "why_tests_cant": "needs all inputs, including ones ending inside a longer token", "anchors": ["src/lex/lex.rs: Lex::lex"]}
{"id": "C14", "title": "Token values are the matched text", "statement": "For every input, the value of every value-carrying token returned by Lex::lex is exactly the matched lexeme, and lexing never panics.", "quantifier": "all token lists, all inputs (any Unicode text)", "why_tests_cant": "character indices versus byte offsets: all tests are ASCII", "anchors": ["src/lex/lex.rs: Lex::make_tok, Lex::lex"]}
{"id": "C15", "title": "Lexing follows the reference maximal-munch tokenisation", "statement": "For every token list and input, Lex::lex returns exactly the token sequence of the reference maximal-munch tokeniser defined directly on regular languages (longest match, earliest definition, whitespace skipped when no token can start with it).", "quantifier": "all token lists, all inputs", "why_tests_cant": "end-to-end refinement over all inputs", "anchors": ["src/lex/lex.rs: Lex::lex", "src/lex/dfa.rs", "src/lex/nfa.rs"]}
{"id": "C16", "title": "Lexed tokens get the grammar index of their own definition, then EOF", "statement": "Lex::convert_tokens maps each token to the grammar token index of the definition that produced it, keeps order and length, and appends exactly one EOF with index 0.", "quantifier": "all grammars, all token sequences", "why_tests_cant": "depends on names being unambiguous across the whole grammar", "anchors": ["src/lex/lex.rs: Lex::convert_tokens, token_with_idx"]}
{"id": "C17", "title": "String literals beat regexes when both match", "statement": "In a lexer built by Lex::from_grammar, if a string literal of the grammar and a regex of the grammar match the same longest prefix, the literal's token is emitted; a literal matches exactly its own text.", "quantifier": "all grammars, all inputs", "why_tests_cant": "keyword/identifier precedence over every pair of literal and regex", "anchors": ["src/lex/lex.rs: Lex::from_grammar", "src/parser/mod.rs: Symbol (derived Ord), to_token_def_with_regex"]}
{"id": "C18", "title": "Grammar token table is a bijection", "statement": "For every grammar, index 0 is EOF, every symbol used on a right-hand side has exactly one index, get_token and get_token_idx are mutually inverse on it, and string literals come before non-terminals which come before regexes.", "quantifier": "all ASTs with a start production", "why_tests_cant": "all grammars; symbols with equal text but different kind", "anchors": ["src/parser/mod.rs: Grammar::grammar_from_ast_productions, get_token, get_token_idx, tokens"]}
{"id": "C19", "title": "Productions keep their order and are found by name", "statement": "Production 0 is S' -> S for the first production marked start; production k+1 is the k-th body in source order with its own symbols, mapping code and type; production_iter(name) yields exactly the productions of that name in increasing index order; without a start production construction panics.", "quantifier": "all ASTs", "why_tests_cant": "all shapes of AST, including repeated names and empty bodies lists", "anchors": ["src/parser/mod.rs: Grammar::grammar_from_ast_productions, production_iter, Production::from_ast, ProductionIter::next"]}
{"id": "C20", "title": "FIRST sets are exactly the terminals that can start a derivation", "statement": "For every grammar without epsilon symbols, if first() returns on a symbol string then it returns exactly the set of terminals that can begin a string derivable from it.", "quantifier": "all epsilon-free grammars, all symbol strings", "why_tests_cant": "inductive definition over all derivations", "anchors": ["src/lalr/first.rs: first, first_of_symbol"]}
{"id": "C21", "title": "FIRST computation terminates", "statement": "first() returns for every grammar and symbol string.", "quantifier": "all grammars", "why_tests_cant": "unbounded recursion: only an argument over all grammars shows when it stops", "anchors": ["src/lalr/first.rs: first_of_symbol", "todo.md"]}
{"id": "C22", "title": "Closure is the least LR(1) closure", "statement": "The closure of an item set contains exactly the items and lookaheads derivable from it by the LR(1) closure rule [A -> a.Bb, x] => [B -> .g, y] for y in FIRST(bx), and computing it terminates whenever FIRST does.", "quantifier": "all grammars, all item sets", "why_tests_cant": "least fixed point over all grammars", "anchors": ["src/lalr/item.rs: ItemSet::closure"]}
{"id": "C23", "title": "goto moves the dot over the symbol and closes", "statement": "ItemSet::goto(X) contains exactly the closure of the items [A -> aX.b, x] for [A -> a.Xb, x] in the set.", "quantifier": "all grammars, item sets, symbols", "why_tests_cant": "all item sets", "anchors": ["src/lalr/item.rs: ItemSet::goto"]}
{"id": "C24", "title": "The canonical collection is complete, minimal and duplicate free", "statement": "ItemSet::items terminates whenever FIRST does and returns, without duplicates and with the start set first, exactly the non-empty item sets reachable from the initial set by goto.", "quantifier": "all grammars", "why_tests_cant": "fixed point over all grammars", "anchors": ["src/lalr/item.rs: ItemSet::items"]}
{"id": "C25", "title": "Merging cores partitions LR(1) states by core and loses no lookahead", "statement": "merge_cores gives every LR(1) state exactly one LALR state; two LR(1) states share an LALR state iff they have the same core; and the LALR state's lookaheads for an item are exactly the union of its members' lookaheads.", "quantifier": "all collections of LR(1) item sets", "why_tests_cant": "all collections, grouping by 64-bit hash", "anchors": ["src/lalr/table.rs: merge_cores, merge_sets_with_same_core", "src/lalr/item.rs: ItemSet::union, core_hash"]}
{"id": "C26", "title": "Returned tables are conflict free and faithful to the LALR states", "statement": "If make_tables returns, every ACTION and GOTO entry is justified by an item of its LALR state, every complete item has its reduce (or accept) entry for each lookahead, and no entry was overwritten: a state with two different actions for one token is never silently resolved.", "quantifier": "all grammars", "why_tests_cant": "all grammars and all states", "anchors": ["src/lalr/table.rs: make_lalr_tables, Table::entry, Table::insert"]}
{"id": "C27", "title": "Tables are built for every LALR(1) grammar", "statement": "If the LALR(1) automaton of the grammar has no shift/reduce and no reduce/reduce conflict, make_tables returns tables instead of panicking.", "quantifier": "all grammars", "why_tests_cant": "only grammars in the tests are tried; whether an arbitrary conflict-free grammar is accepted is a universal claim", "anchors": ["src/lalr/table.rs: make_lalr_tables"]}
{"id": "C28", "title": "Every transition of the LALR automaton is in the tables", "statement": "If make_tables returns, then for every LALR state with an item whose dot is before X there is a shift (X terminal) or goto (X non-terminal) entry for X, leading to the LALR state whose core is that of goto(state, X).", "quantifier": "all grammars, all states, all symbols", "why_tests_cant": "all grammars; the code looks the merged goto set up by equality", "anchors": ["src/lalr/table.rs: make_lalr_tables, compute_goto"]}
{"id": "C29", "title": "Parser soundness", "statement": "If parsing a token sequence accepts, the start symbol derives exactly that token sequence, and the sequence of reductions performed is a rightmost derivation in reverse (the post-order of a parse tree).", "quantifier": "all grammars whose tables are built, all token sequences", "why_tests_cant": "all inputs of all grammars", "anchors": ["src/lalr.rs: Lalr::parse_impl", "src/lalr/table.rs"]}
{"id": "C30", "title": "Parser completeness", "statement": "If make_tables returns for a grammar and the start symbol derives a token sequence, then parsing that sequence accepts.", "quantifier": "all grammars whose tables are built, all derivable token sequences", "why_tests_cant": "all sentences of all grammars", "anchors": ["src/lalr.rs: Lalr::parse_impl", "src/lalr/table.rs: make_lalr_tables"]}
{"id": "C31", "title": "Parsing always terminates", "statement": "For every grammar whose tables were built and every token sequence, the parse loop stops after finitely many steps (accepting or panicking).", "quantifier": "all grammars whose tables are built, all token sequences", "why_tests_cant": "a loop with no obvious bound", "anchors": ["src/lalr.rs: Lalr::parse_impl"]}
{"id": "C32", "title": "The parser fails only on a wrong token", "statement": "For tables returned by make_tables and any token sequence ended by EOF, the parser never underflows its stack, never meets an undefined production, and never finds an empty GOTO entry; the only panic is the invalid-token one.", "quantifier": "all grammars whose tables are built, all token sequences", "why_tests_cant": "internal panics must be unreachable on every input", "anchors": ["src/lalr.rs: Lalr::parse_impl"]}
{"id": "C33", "title": "Grammars with tables are unambiguous", "statement": "If make_tables returns for a grammar then no token sequence has two different parse trees from the start symbol.", "quantifier": "all grammars whose tables are built, all parse trees", "why_tests_cant": "quantifies over pairs of parse trees", "anchors": ["src/lalr/table.rs: make_lalr_tables"]}
{"id": "C34", "title": "A grammar using an undefined non-terminal is rejected cleanly", "statement": "Building tables for a grammar in which a reachable right-hand side mentions a non-terminal without productions panics instead of producing tables.", "quantifier": "all grammars", "why_tests_cant": "all grammars and all positions of the undefined name", "anchors": ["src/parser/mod.rs: Grammar::production_iter", "src/lalr/item.rs: ItemSet::closure"]}
{"id": "C35", "title": "OptionUsize behaves like Option for every index that can occur", "statement": "For every value other than usize::MAX, OptionUsize::some(v) is Some(v) and none() is None under unwrap, unwrap_or, is_some, is_none and map; some(usize::MAX) is indistinguishable from none().", "quantifier": "all usize values", "why_tests_cant": "2^64 values", "anchors": ["src/option_usize.rs: OptionUsize"]}
{"id": "C36", "title": "End to end: Lalr::parse accepts exactly the sentences", "statement": "Lalr::parse(input) returns iff the token sequence of the input is a sentence of the grammar.", "quantifier": "all grammars whose tables are built, all ASCII inputs", "why_tests_cant": "composition of lexer, index conversion and parser over all inputs", "anchors": ["src/lalr.rs: Lalr::parse"]}
{"id": "C37", "title": "Generated production actions line up with the grammar", "statement": "The k-th generated Action type has the index of the k-th grammar production, pops as many symbols as that production has, and EmitProduction dispatches to it; index 0 (the augmented production) has no action.", "quantifier": "all ASTs", "why_tests_cant": "all grammars", "anchors": ["src/codegen/parse_gen.rs: Ctx::new, generate_actions_module, ActionImplParam::from_input_symbols"]}
{"id": "C38", "title": "Generated error branches blame the right position", "statement": "In the TypeScript generated for a production, when the check of the n-th right-hand-side symbol is the first to fail, the resulting error names position n.", "quantifier": "all productions", "why_tests_cant": "all right-hand sides with several named symbols", "anchors": ["src/codegen/parse_gen.rs: Action::validate_params"]}
{"id": "C39", "title": "Generated conditions are well-formed TypeScript", "statement": "Every constraint clause emitted for a named symbol has the form `extends <type>` with the keyword separated from the type.", "quantifier": "all productions", "why_tests_cant": "all grammars; the tests do not type check their output", "anchors": ["src/codegen/parse_gen.rs: Action::validate_params"]}
{"id": "C40", "title": "Generated arithmetic tables are inverse successor/predecessor", "statement": "gen_arithmetic(n) emits Succ entries i -> i+1 and Pred entries i+1 -> i exactly for 0 <= i < n.", "quantifier": "all table sizes", "why_tests_cant": "all sizes", "anchors": ["src/codegen/lex_gen.rs: gen_arithmetic"]}
{"id": "C41", "title": "The generated lexer tables describe the lexer's DFA", "statement": "State i of the generated States table has exactly the DFA's edges out of state i in order and is accepting iff a token ends there; looking a state up through DFAtoNFA and Tokens finds the token definition the Rust lexer would emit.", "quantifier": "all lexers", "why_tests_cant": "all lexers and all states", "anchors": ["src/codegen/lex_gen.rs: ts::Ctx::new, State::from_lex_state", "ts/lex.ts: GetTokenDef, NextState"]}
{"id": "C42", "title": "The type-level lexer agrees with the Rust lexer", "statement": "On every input made of characters of the generated character table, the TypeScript Lex type returns the same tokens as Lex::lex followed by EOF, or an error exactly where Lex::lex stops early.", "quantifier": "all lexers, all such inputs", "why_tests_cant": "two implementations over all inputs", "anchors": ["ts/lex.ts: LexImpl, Lex", "src/lex/lex.rs: Lex::lex"]}
{"id": "C43", "title": "The type-level parser agrees with the Rust parser", "statement": "The TypeScript Parse type accepts a token sequence iff the Rust parser accepts it.", "quantifier": "all grammars, all token sequences", "why_tests_cant": "two implementations over all inputs; recursion depth counter", "anchors": ["ts/parse.ts: ParseImpl, ParseImplShift, ParseImplReduce", "src/lalr.rs: Lalr::parse_impl"]}
{"id": "C44", "title": "Type-level arithmetic and string helpers compute what their names say", "statement": "For numbers covered by the generated tables, Gte, Gt, Lte, Lt, Add and Sub agree with arithmetic; Reverse, PopNStack, PopNStackWithValue and Substring agree with the list operations.", "quantifier": "all numbers below the table size, all lists and strings", "why_tests_cant": "all values", "anchors": ["ts/util.ts"]}
{"id": "C45", "title": "Quoted tokens of the grammar file keep their content", "statement": "alloc_quoted_str, alloc_ts_code and alloc_regex return exactly the characters between the delimiters, for any Unicode content.", "quantifier": "all strings", "why_tests_cant": "all strings", "anchors": ["src/parser/support.rs: alloc_quoted_str, alloc_ts_code, alloc_regex"]}
{"id": "C46", "title": "Escapes in quoted literals are undone", "statement": "A quoted token whose content uses the escapes the token regex of the grammar file allows (backslash-backslash, backslash-quote) stands for the unescaped text.", "quantifier": "all literals of grammar files", "why_tests_cant": "all literals", "anchors": ["src/parser/support.rs: alloc_quoted_str", "src/parser/grammar.lalrpop:41-42"]}
{"id": "C47", "title": "The generated parser tables are those of the grammar", "statement": "Read as TypeScript, the generated parser file declares Tokens, Productions, Action, Goto and TokenKindToIdx, each once and with every member once, and their entries are exactly the tokens, productions, ACTION entries, GOTO entries and token indices of the grammar and its LALR tables.", "quantifier": "all grammar files for which tables are built", "why_tests_cant": "all grammars; the tests compare no generated text", "anchors": ["src/codegen/parse_gen.rs: generate_type_defs, generate_tokens, generate_productions, generate_action_table, generate_goto_table, generate_tokenkind_to_idx"]}
{"id": "C48", "title": "InputSymbol is totally ordered, consistently with equality", "statement": "The Ord instance of InputSymbol is antisymmetric, transitive and answers Equal only for equal symbols.", "quantifier": "all symbols", "why_tests_cant": "laws over all triples", "anchors": ["src/parser/ast.rs:107-137"]}
{"id": "C49", "title": "The generated character tables list every character with its code", "statement": "Characters and CharTable are inverse to each other, give every character its code point, and contain every character a regex can match.", "quantifier": "all characters", "why_tests_cant": "over a million characters, and the text must be read as TypeScript", "anchors": ["src/codegen/lex_gen.rs: generate_chars, chars_to_string", "ts/chars.ts"]}
{"id": "C50", "title": "The generated TypeScript and the Rust library agree on texts", "statement": "Lexing and parsing a text with the generated type-level lexer and parser accepts it iff Lalr::parse accepts it, and the value computed belongs to the parse tree whose reductions the Rust parser reports.", "quantifier": "all grammar files for which the generators and tables succeed, all texts", "why_tests_cant": "two implementations in two languages over all grammars and texts", "anchors": ["ts/lex.ts: Lex", "ts/parse.ts: Parse", "src/lalr.rs: Lalr::parse", "src/codegen/lex_gen.rs", "src/codegen/parse_gen.rs"]}
{"id": "C51", "title": "Grammar files are read as their grammar says, in one way", "statement": "parse_grammar returns an AST exactly when the text, split into tokens by longest match with literals first, is derived by the rules of grammar.lalrpop with that AST; the AST is unique, and every other text panics on the parse error and nowhere else.", "quantifier": "all texts", "why_tests_cant": "all texts", "anchors": ["src/lib.rs: parse_grammar", "src/parser/grammar.lalrpop", "src/parser/support.rs"]}
{"id": "C52", "title": "Exactly which grammars a grammar file can express", "statement": "An AST is the reading of some text iff it has a rule, its names are identifiers other than export, start and r, every body has a symbol, literals and regexes have backslashes only before backslashes and quotes and quotes only after backslashes, and code is on one line.", "quantifier": "all ASTs", "why_tests_cant": "all ASTs and all texts", "anchors": ["src/parser/grammar.lalrpop", "src/lib.rs: parse_grammar"]}
{"id": "C53", "title": "The layout of a grammar file does not matter", "statement": "Separating the same tokens by different white space does not change what a grammar file means.", "quantifier": "all texts", "why_tests_cant": "all layouts of all files", "anchors": ["src/parser/grammar.lalrpop: TsCode"]}
{"id": "C54", "title": "Any literal, regex and name can be written in a grammar file", "statement": "For every text there is a grammar file with that literal, one with that regex, and for every identifier one with a rule of that name.", "quantifier": "all texts and identifiers", "why_tests_cant": "says that no text at all has a given meaning", "anchors": ["src/parser/grammar.lalrpop: Symbol, Ident"]}
{"id": "C55", "title": "A syntax error is reported at the first wrong token", "statement": "When the parser rejects a token sequence, everything before the position it reports can be continued to a sentence, and with the token it reports it cannot.", "quantifier": "all grammars with tables, all token sequences that are rejected", "why_tests_cant": "asks for the existence of a continuation of every consumed prefix and for the absence of any continuation after the reported token", "anchors": ["src/lalr.rs:51-159", "src/lalr/table.rs:41-43"]}
{"id": "C56", "title": "The tokens listed as valid are those that could come next", "statement": "The list of valid tokens in the error message contains exactly the tokens that can follow the consumed input in a sentence, EOF among them when the consumed input is a sentence.", "quantifier": "all grammars with tables, all token sequences that are rejected, all tokens", "why_tests_cant": "a list can only be compared with all sentences of the language", "anchors": ["src/lalr.rs:147-154", "src/lalr/table.rs:41-43"]}
{"id": "C57", "title": "The type of a text is the value of its parse tree", "statement": "For a grammar file and the files generated from it, Parse<Lex<s>> has a value exactly when s, white space aside, is a sequence of texts of symbols that form a sentence of the grammar; the value is the one the code of the rules computes along the parse tree, from the texts in s.", "quantifier": "all grammar texts the library builds files for, all strings s, all code of the rules", "why_tests_cant": "relates every grammar text and every input through five components (grammar reader, table construction, code generation, type-level lexer and parser)", "anchors": ["src/parser", "src/lalr.rs:83-175", "src/codegen/lex_gen.rs", "src/codegen/parse_gen.rs", "ts/lex.ts", "ts/parse.ts"]}
{"id": "C58", "title": "Debug builds and release builds do the same", "statement": "Compiled with optimisations, without debug assertions and overflow checks, the library reads the same grammars, builds the same lexers and tables, and accepts and rejects the same token sequences with the same reductions, as compiled for debugging.", "quantifier": "all grammar texts, all grammars, all hash functions, all token sequences of any length", "why_tests_cant": "tests run in debug builds only; whether an assertion fails or a subtraction underflows depends on every input", "anchors": ["src/lalr/item.rs:168-174", "src/lalr.rs:89-112", "src/parser/support.rs:18-49", "src/lex/dfa.rs:259-276"]}
{"id": "C59", "title": "The order of rules and the names of non-terminals do not matter", "statement": "If two grammars have the same rules and alternatives, in any order, with the non-terminals renamed without identifying any, and the same start symbol, then they have the same lexer, tables are built for both or for neither (hash collisions apart), and on every text both parsers end alike: the same acceptance, rejection or failure, after the corresponding reductions in the same order.", "quantifier": "all pairs of grammars related by a permutation of the rules and a renaming, with the bodies a grammar file can write (not empty, no epsilon); all texts, all regex parsers, all hash functions", "why_tests_cant": "the numbering of productions, states and tokens depends on the order in which rules are written; whether anything else does cannot be seen from examples, as the sets the code compares are ordered by these numbers", "anchors": ["src/parser/mod.rs:57-113", "src/lalr/item.rs", "src/lalr/table.rs", "src/lalr.rs:31-159", "src/lex/lex.rs:55-68"]}
{"id": "C60", "title": "The states and lookaheads are those of the rightmost derivations", "statement": "Every state of the tables stands for the viable prefixes after which its items are valid, every viable prefix has exactly one state, the tables lead along it to that state, and an item has a token as lookahead in a state exactly when some rightmost derivation passes through a prefix of that state with that token next after the item's rule. So an entry to reduce is there exactly for the tokens that can follow in such a derivation, which is the definition of LALR(1).", "quantifier": "all grammars with bodies as a grammar file can write them, all viable prefixes, all items and tokens, all hash functions", "why_tests_cant": "there are infinitely many viable prefixes and derivations; a lookahead missing or too many changes the tables only for particular contexts", "anchors": ["src/lalr/item.rs:168-300", "src/lalr/table.rs:75-290"]}
{"id": "C61", "title": "The lexer's automaton has no useless states", "statement": "Every state of the automaton built from a set of token definitions is reached by some text; from every state but the start the text can be continued to a whole token; and no two states accept the same continuations.", "quantifier": "all lists of token definitions and all their regexes; all texts", "why_tests_cant": "that a state is never reached, or that two states accept the same texts, is a statement about all texts; the generated lexer has a declaration per state, so useless ones are silently carried along", "anchors": ["src/lex/dfa.rs:163-236", "src/lex/lex.rs:70-104"]}
{"id": "C62", "title": "Rules the start symbol cannot use change nothing", "statement": "If rules are added for names that the start symbol does not need (directly or through other rules), then tables are built for the grammar with them exactly when they are built without them (hash collisions apart), however broken the added rules are; the parser does the same on every sequence of tokens, with the corresponding reductions; and the same texts are accepted.", "quantifier": "all grammars and all sets of added rules with the bodies a grammar file can write, in any order; all token sequences, all texts, all regex parsers, all hash functions", "why_tests_cant": "the added rules take part in the numbering of productions and tokens, in the token table and in the sets of non-terminals the tables are built over; that none of it leaks into the result is a statement about all grammars and inputs", "anchors": ["src/parser/mod.rs:57-113", "src/lalr/item.rs", "src/lalr/table.rs", "src/lalr.rs:31-159", "src/lex/lex.rs:55-68"]}
{"id": "C63", "title": "What lexing, parsing and building the lexer cost", "statement": "Lexing comes round its loop a number of times linear in the text, parsing takes a number of steps linear in the number of tokens and a stack no deeper than they are many, and the number of states of the lexer is polynomial in the size of the token definitions.", "quantifier": "all lexers and texts; all grammars, their tables and all token sequences; all token definitions", "why_tests_cant": "a bound on the work for all inputs, and a family of inputs on which it is exceeded, are statements about unbounded sizes; a test times some", "anchors": ["src/lex/lex.rs:157-222", "src/lalr.rs:94-159", "src/lex/nfa.rs:65-246", "src/lex/dfa.rs:163-236"]}
{"id": "C64", "title": "White space between tokens does not matter", "statement": "Blanks and newlines between two tokens can be added, removed or replaced by others without changing the tokens that are returned, nor what parsing returns.", "quantifier": "all token definitions (and all grammars), all texts, all places between tokens and all strings of white space", "why_tests_cant": "it compares the runs on two texts, for every text, place and amount of white space; a test tries some spacing of some texts", "anchors": ["src/lex/lex.rs:157-222", "src/lex/dfa.rs:163-236", "src/lalr.rs:94-159"]}
{"id": "C65", "title": "Texts separated by white space are lexed separately", "statement": "The tokens of a text, white space and another text are those of the first followed by those of the second.", "quantifier": "all token definitions, all pairs (and lists) of texts, all white space between them", "why_tests_cant": "it relates the runs on a text and on its parts for every way of cutting a text at white space; a test joins some texts", "anchors": ["src/lex/lex.rs:157-222", "src/lex/dfa.rs:163-236"]}
{"id": "C66", "title": "The size of the parsing tables", "statement": "The tables have at most one state for every set of items of the grammar and an entry for at most every state and symbol; the number of states grows no faster than a polynomial in the size of the grammar.", "quantifier": "all grammars for which the tables are built, all hash functions", "why_tests_cant": "it bounds what is built for every grammar, and a growth rate is a statement about a family of grammars of every size; a test measures some tables", "anchors": ["src/lalr/item.rs:186-220", "src/lalr/table.rs:75-208", "src/lalr/table.rs:211-290"]}
{"id": "C67", "title": "When the files are generated", "statement": "For every list of rules for which the lexer and the tables are built, both generated files are written; from a grammar file this happens exactly when a rule is marked as start, its regexes are supported and its tables can be built.", "quantifier": "all grammar files, all lists of rules (also ones no file gives), all hash functions and regex parsers", "why_tests_cant": "it says for which of infinitely many inputs the whole chain returns, and that nothing else can stop it; a test runs the chain on some grammar", "anchors": ["src/codegen/parse_gen.rs:74-145", "src/codegen/parse_gen.rs:465-611", "src/codegen/lex_gen.rs:54-205", "src/lalr.rs:31-43", "src/lib.rs:10-17"]}
{"id": "C68", "title": "What the type of a failed parse shows", "statement": "When the type of a text is an error of the type-level parser for a token, the number in it is that of the first token that cannot come next, and the symbols in it are the tokens before it and values of trees over them, in order, none missing; when it is an error of an action, the symbols are those before the token, and the check of the rule the Rust parser reduces by fails on the last of them.", "quantifier": "all grammar files whose tables are built, all sequences of tokens and texts, all code, types and values of the actions", "why_tests_cant": "it says what every error type contains, for every grammar, text and code of the actions; a test looks at some error", "anchors": ["ts/parse.ts:61-171", "src/codegen/parse_gen.rs:465-611", "src/lalr.rs:79-160"]}
{"id": "C69", "title": "A sentence written down is read back", "statement": "Writing the leaves of a parse tree one after the other, each as one of its texts, gives a text that is parsed back to the same tree, and whose type is the value of that tree; so every sentence of a grammar can be written.", "quantifier": "all grammar files whose lexer and tables are built, all parse trees, all choices of texts for the leaves and of white space between them", "why_tests_cant": "it quantifies over all trees of all grammars and all ways to write them; a test writes down some trees of one grammar", "anchors": ["src/lalr.rs:60-160", "src/lex/lex.rs:150-260", "ts/lex.ts:60-218", "ts/parse.ts:61-171"]}
{"id": "C70", "title": "How terminals are written does not matter", "statement": "If every terminal of a grammar is written differently - a regex as an equivalent regex, a literal as a regex that matches just its text, or the other way round - then tables are built for both grammars or for neither, both lexers find the same texts, and every text is parsed in the same way, up to the numbers of productions and tokens.", "quantifier": "all pairs of grammar ASTs whose rules correspond under an injective map of symbols, all hash functions, all token sequences, all texts", "why_tests_cant": "it relates the results of two runs for all pairs of equivalent grammars and all inputs; a test compares two grammars on a few texts", "anchors": ["src/parser/mod.rs:60-222", "src/lalr/table.rs:75-290", "src/lex/lex.rs:55-147", "src/lalr.rs:60-160"]}
{"id": "C71", "title": "Sentences of every length get a type", "statement": "The generated types have a value for every sentence, however long: the type-level parser does not give up on an input that the Rust parser accepts.", "quantifier": "all grammar files, all actions and types, all token sequences and texts", "why_tests_cant": "the claim is about sentences of unbounded length of every grammar; a test tries a few short ones of one grammar, on which nothing goes wrong", "anchors": ["ts/parse.ts:61-180", "src/codegen/parse_gen.rs:311-545", "README.md:73-82"]}
{"id": "C72", "title": "Comments in grammar files", "statement": "A line of comment, starting with two slashes as in README's example, can be put before any line of a grammar file without changing what the file means.", "quantifier": "all grammar files, all lines of them, all comments", "why_tests_cant": "a test puts one comment into one file; whether there is any file and any place for a comment is a claim about all of them", "anchors": ["src/parser/grammar.lalrpop:6-63", "src/lib.rs:10-17", "README.md:21-45"]}
{"id": "C73", "title": "Grammars in which the next token tells the rule", "statement": "If the next token always tells which rule of a name to use (the grammar is LL(1), without empty bodies) and every used symbol derives something, then tables are built, parsing ends on every input, a sentence has one parse tree, no sentence is a proper beginning of another, and exactly the sentences are accepted.", "quantifier": "all LL(1) grammars without empty bodies whose used symbols are productive, all hash functions without collisions, all token sequences", "why_tests_cant": "it is a promise for a whole class of grammars; a test builds the tables of a few of them", "anchors": ["src/lalr/table.rs:75-289", "src/lalr/item.rs:186-300", "src/lalr/first.rs:5-57", "src/lalr.rs:44-133"]}
{"id": "C74", "title": "Alternatives may begin with the same token", "statement": "An LALR(1) grammar may have alternatives of one name that begin in the same way, such as a list with separators: L -> x \",\" L | x.  Tables are built for it and both alternatives can be used.", "quantifier": "all grammars without empty bodies, all pairs of alternatives with a common beginning that ends with a terminal, all token sequences, all hash functions", "why_tests_cant": "the claim is about every pair of such alternatives in every grammar and about all inputs; a test tries a few inputs of a few grammars", "anchors": ["src/lalr/table.rs:120-293", "src/lalr/item.rs:60-300", "src/lalr.rs:1-200"]}
{"id": "C75", "title": "Regular grammars are recognised exactly", "statement": "If names stand only at the end of the bodies of a grammar (or only at their beginning) and tables are built, then no transition is missing from them: exactly the sentences are accepted, everything else is reported, the parser stops on every input, and a sentence has one parse tree.  If moreover names stand at the end, the next token tells the rule and every used symbol derives something, then tables are built.  If names stand only at the beginning, the stack never has more entries than the longest body and one, whatever the input; if at the end, it can have one for each token and one more.  From the grammar file on, every text is answered as its symbols require.", "quantifier": "all right-linear and all left-linear grammars without empty bodies, all hash functions, all token sequences", "why_tests_cant": "it excludes the missing transitions of C28 for a whole class of grammars, with automata of any size; tests try a few of them on a few inputs", "anchors": ["src/lalr/table.rs:59-293", "src/lalr/item.rs:60-300", "src/lalr.rs:50-200"]}
{"id": "C76", "title": "Adding rules to a grammar keeps what was accepted", "statement": "If a grammar gets further rules and tables are built before and after, then what was accepted before is accepted after, and the same rules are used for it.", "quantifier": "all pairs of grammars of which one has the rules of the other, all token sequences and texts, all hash functions", "why_tests_cant": "it compares the results for two grammars, whose tables have nothing in common, on all inputs", "anchors": ["src/lalr/table.rs:59-293", "src/lalr.rs:1-200", "src/parser/mod.rs:57-113", "src/lex/lex.rs:1-200"]}
{"id": "C77", "title": "The committed Lisp grammar reads exactly its lists", "statement": "With the committed grammar file, a text is accepted exactly if it is a list of the word add, numbers and such lists, written with white space anywhere except inside words and numbers and necessarily between two numbers; the parser always returns, each text is read in one way, the reductions are those of the list, and Parse<Lex<text>> is the object the actions describe for it.  The grammar printed in the README is read too.", "quantifier": "all texts, all nestings and lengths of lists, all hash functions", "why_tests_cant": "the texts are infinitely many; the tests of the repository try one", "anchors": ["basic_lisp.tlalr:1-14", "README.md:20-42", "src/lalr.rs:22-50", "src/lex/lex.rs:30-155", "ts/parse.ts:1-168", "ts/lex.ts:1-190"]}
{"id": "C78", "title": "Rules that begin and end with their own name", "statement": "A rule E -> E m E, such as Expr -> Expr Op Expr in todo.md, never takes part in what the parser accepts; if m is empty or ends with a name and the rule can be reached, no tables are built at all (for the grammar of todo.md building never ends).", "quantifier": "all grammars with such a rule, all m, all hash functions, all token sequences, all texts", "why_tests_cant": "todo.md reports one grammar; that no other rules around it and no other text make such a rule work is about all grammars, and the silent resolution of conflicts (C26) could have made it work", "anchors": ["todo.md:8-25", "src/lalr/first.rs:5-57", "src/lalr/table.rs:75-209", "src/lalr.rs:51-165"]}
{"id": "C79", "title": "Giving tokens rules of their own", "statement": "Writing a new name for a token everywhere and adding the rule name -> token does not change the language; if this is done for every token written at more than one place, a grammar without LALR conflicts gets tables even where it got none before (C74), and the new parser is a parser for the old grammar: the same texts, and the same trees when the reductions of the new rules are left out.", "quantifier": "all grammars, all choices of tokens and names, all hash functions, all token sequences, all texts", "why_tests_cant": "that rewriting a grammar cannot lose or gain a text or cause a conflict is about all its derivations and all its item sets", "anchors": ["src/lalr/table.rs:75-209", "src/lalr/item.rs:186-300", "src/lalr/first.rs:5-57", "src/parser/mod.rs:57-113", "src/lalr.rs:52-149"]}
{"id": "C80", "title": "What more text can change", "statement": "When text is added behind a text, all tokens read before, except perhaps the last one, stay what they were, with their values; nothing at all changes if reading had ended at a wrong character, and what follows a character of no definition is never looked at. A wrong token that is not the last token of the text remains the first wrong token however the text goes on, and the report stays the same: more text never repairs it.", "quantifier": "all token definitions, all grammars, all texts and all continuations", "why_tests_cant": "it compares the runs on a text and on each of the infinitely many texts that begin with it", "anchors": ["src/lex/lex.rs:157-250", "src/lalr.rs:45-159"]}
{"id": "C81", "title": "How building a parser ends", "statement": "Building a parser from a grammar file ends in one of these ways and in no other, each for its own reason only: the file is not a grammar file; no rule is marked as start; a regex is rejected, has an unsupported or an empty part; a rule that can be used mentions a name without rules; FIRST recurses for ever, because what follows a name in a rule that can be used leads to a left-recursive name; two items of a state want an action on the same token; or the parser is built, and none of this is the case.", "quantifier": "all texts of grammar files, all regex parsers, all hash functions under which no two cores of the grammar collide", "why_tests_cant": "it excludes every other panic and every other endless run for infinitely many inputs; a test shows one outcome of one input", "anchors": ["src/lib.rs:10-17", "src/lalr.rs:31-43", "src/lex/lex.rs:55-114", "src/lalr/item.rs:186-300", "src/lalr/first.rs:5-57", "src/lalr/table.rs:89-209"]}
{"id": "C82", "title": "How parsing a text ends", "statement": "Parsing a text with the parser of a grammar file ends in one of these ways and in no other, each for its own reason only: a token read does not begin and end between characters of the text's bytes; the tokens read have a tree whose transitions are all in the tables, and the answer is its reductions; a token is reported, which if no transition is missing is the first that cannot come there, and then the tokens are no sentence; a GOTO entry is missing; or the run is endless, for which a transition must be missing and a name of a usable rule must derive itself. If no transition is missing and the text is ASCII, it is parsed exactly when what is read of it is a sentence and reported otherwise. A literal that is written like a regex is taken for the regex, wherever it occurs.", "quantifier": "all grammar files with a parser, all regex parsers, all hash functions, all texts", "why_tests_cant": "it excludes every other panic and every other endless run for infinitely many grammars and texts; a test shows one outcome of one text", "anchors": ["src/lalr.rs:31-159", "src/lex/lex.rs:116-262", "src/lalr/table.rs:89-209"]}
{"id": "C83", "title": "Grammars of expressions", "statement": "For a grammar of expressions with levels of precedence as one writes it in a textbook - any number of levels, each with any number of operators that all associate to the left or all to the right, and above them atoms and expressions in brackets - the tables are made, whatever the order of the rules, and no transition is missing. The parser accepts exactly the expressions; each has one reading, in which operators of higher levels bind closer and operators of one level associate to their side; and the reductions are those of the tree of that reading. This holds from the text of the grammar file to the text parsed.", "quantifier": "all grammars of expressions (any number of levels, operators and atoms, any names, any order of rules), all hash functions without collisions on cores, all token sequences and ASCII texts", "why_tests_cant": "there are infinitely many such grammars and for each infinitely many expressions; LALR merging can lose transitions (C28), and that it never does here is a statement about all states of all these grammars", "anchors": ["src/lalr/item.rs:186-300", "src/lalr/table.rs:89-209", "src/lalr.rs:31-159"]}
{"id": "C84", "title": "Grammars of operators with several parts", "statement": "For a grammar of operators with any number of parts - prefix, postfix and infix operators, brackets, calls, conditionals, loops - in any number of sorts (say statements and expressions), each with any number of levels whose operators all associate to the left or all to the right, in which operands between two terminals of an operator are of the loosest level of their sort, operators of one sort that begin alike have different first terminals, and a terminal that ends an operand cannot continue it, the tables are made and no transition is missing. The parser accepts exactly the expressions of the first sort; each has one reading, the one that precedence and associativity give, and the reductions are those of its tree. This holds from the text of the grammar file to the text parsed. Two of the conditions are seen to be needed: with an operator that associates to neither side, or an operand between two terminals that is of a higher level, there are grammars whose tables are made but reject their sentences.", "quantifier": "all such grammars (any number of sorts, levels, operators and parts, any names, any order of rules), all hash functions without collisions on cores, all token sequences and ASCII texts", "why_tests_cant": "there are infinitely many such grammars and for each infinitely many expressions; that merging loses no transition is a statement about all states of all these grammars, and it fails for grammars that look much the same", "anchors": ["src/lalr/item.rs:186-300", "src/lalr/table.rs:89-209", "src/lalr.rs:31-159"]}
{"id": "C85", "title": "The type of an expression", "statement": "For a grammar of operators as in C84 whose actions compute, for each operator, a function of the values of its operands and the texts of its terminals, and pass on the value in rules without terminals: Parse<Lex<s>> has a value exactly if s is an expression of the first sort, white space aside, and the value is that of the expression, computed from the inside out as precedence and associativity say. The parser makes one reduction for each operator and one for each level that an operand is above the one it needs.", "quantifier": "all such grammars and functions of the operators, all texts", "why_tests_cant": "there are infinitely many grammars, functions and texts; the statement ties the text of the grammar file, the generated files, the type-level interpreter and the value of an expression together, of which a test sees one instance", "anchors": ["src/lalr.rs:31-159", "src/lalr/table.rs:89-209", "src/codegen/lex_gen.rs", "src/codegen/parse_gen.rs", "ts/lex.ts", "ts/parse.ts"]}
{"id": "C86", "title": "Using a grammar of operators", "statement": "For a grammar of operators as in C84: a text that is no expression is reported at the first token with which what was read so far begins no expression (at its end, if it begins one); an expression of n tokens is parsed in at most (K+2)n steps, K being the highest level, however many rules there are; the tables have at most one state for each position in a rule after a symbol, and the first; and if every sort has brackets, every expression, whatever the levels of its operands, can be written by adding brackets where they are needed and is read back.", "quantifier": "all such grammars, all token sequences, all expressions", "why_tests_cant": "there are infinitely many grammars, texts and expressions; that nothing continues a prefix, that the cost grows linearly and that the number of states does not explode (as it can for other grammars) are statements about all of them", "anchors": ["src/lalr.rs:31-159", "src/lalr/table.rs:89-209"]}
{"id": "C87", "title": "Writing an expression down", "statement": "For a grammar of operators as in C84 whose sorts have brackets: every expression over texts of the terminals, whatever the levels of its operands, becomes writable by adding brackets (none if none are needed, and only such as every other way of making it writable adds too), and then the texts of its terminals in order, with white space between any two of them, are lexed and parsed to the post-order of the tree of exactly that expression; within the limits of the type-level lexer and parser of C42 and C71 the TypeScript type computed for that text is the value of the expression, provided brackets do not change a value. The texts must be their terminals' own (no earlier terminal matches them), ASCII and free of white space, and the character ranges of the grammar must be kept apart as C09 asks.", "quantifier": "all such grammars, all expressions with their texts, all ways of spacing", "why_tests_cant": "expressions, texts and spacings are unbounded; that printing and parsing are inverse needs the lexer, the tables, the parser and both generated programs together for every one of them", "anchors": ["src/lalr.rs:31-159", "src/lalr/table.rs:89-209", "src/lex/lex.rs:150-260", "ts/lex.ts:60-218", "ts/parse.ts:61-171"]}
{"id": "C88", "title": "Lists of operands", "statement": "For a grammar of operators as in C84 in which operands between terminals may also be non-empty lists of expressions with separators (argument lists, rows of values), each kind of list having its own name, separator and closing terminal, and in which an operator may end with an expression of another sort (as the pair of a name and a value in JSON) where only one and the same terminals can follow it: the tables are made without conflict or missing transition whatever the hash; the parser accepts exactly what such expressions are written as, with the reductions of the tree of the one expression written; from the text of the grammar file to the text parsed nothing else can happen on ASCII input. It is false when one list name is closed by two different terminals, or an operator that ends with another sort is followed by two: the parser then refuses sentences of the grammar.", "quantifier": "all numbers of sorts, levels, operators, kinds of lists and elements, all hashes without collision, all token sequences and ASCII texts", "why_tests_cant": "grammars, nestings and lengths of lists are unbounded, and whether a merged state finds its successor depends on all contexts a list is used in", "anchors": ["src/lalr.rs:31-159", "src/lalr/table.rs:89-209", "src/lalr/item.rs:100-300"]}
{"id": "C89", "title": "The type of an expression with lists", "statement": "For a grammar of operators and lists as in C88 whose rules' code computes what its operators and lists compute (a list of one element from that element, a longer one from the list without its last element, the separator and that element): the TypeScript type computed for a text is the value of the expression written there, in which each list is computed from the first element on, and there is such a type exactly for the expressions of less than 50 tokens and reductions. The number of reductions is one for each operator, one for each level an operand is above the one it needs, and one for each element of a list.", "quantifier": "all such grammars, all interpretations of their rules, all texts within the limits of the type-level lexer (C42)", "why_tests_cant": "expressions and the lengths and nesting of lists are unbounded; that the value is the one meant depends on the lexer, the tables, the parser and the generated action code agreeing for every one of them", "anchors": ["src/lalr.rs:31-159", "src/lalr/table.rs:89-209", "ts/lex.ts:60-218", "ts/parse.ts:61-171"]}
{"id": "C90", "title": "Using a grammar of operators with lists", "statement": "For a grammar of operators and lists as in C88: a text that is rejected is reported at its first wrong token (what is before it begins an expression, with it nothing does; at the end only if the text begins an expression and is none); the number of steps and reductions of a parse is linear in the number of tokens, whatever the number of rules and the lengths and nesting of the lists; and the tables have at most one state for each position in a rule.", "quantifier": "all such grammars with expressions at every level, all token sequences", "why_tests_cant": "a statement about what no expression begins with, and bounds that hold for all sizes of grammars and inputs", "anchors": ["src/lalr.rs:31-159", "src/lalr/table.rs:89-209", "src/lalr/item.rs:100-300"]}
{"id": "C91", "title": "Writing an expression with lists down", "statement": "For a grammar of operators and lists as in C88 with brackets for every sort: every expression, whatever the levels of its operands and the elements of its lists, can be written so that it is parsed back to it with some brackets added (none if none are needed, and only such as every other way of making it writable adds too), its texts and separators one after the other with white space between them; and if the rules' code computes what the operators and lists compute and brackets do not change it, the TypeScript type of that text is the value of the expression. The conditions on texts and character ranges are those of C87.", "quantifier": "all such grammars, all expressions with texts of their own for their terminals, all white space; for the type, texts within the limits of C42 and C71", "why_tests_cant": "expressions, the lengths of their lists and their nesting are unbounded, and the round trip depends on printer, lexer, tables and parser together", "anchors": ["src/lalr.rs:31-159", "src/lalr/table.rs:89-209", "src/lex/lex.rs:150-260", "ts/parse.ts:61-171"]}
{"id": "C92", "title": "What a missing transition costs", "statement": "For a grammar whose tables are built and whose symbols all derive some text: the parser returns the reductions of every parse tree of every sentence if and only if no transition of the automaton is missing from the tables, and that is so if and only if it accepts every sentence and no sentence has two parse trees. Each missing transition costs at least one parse tree, and looking at the tables decides whether one is missing.", "quantifier": "all grammars whose symbols all derive some text and whose tables are built, all token sequences and parse trees, all hash functions", "why_tests_cant": "that nothing is lost is a statement about all sentences; that each gap loses something needs a sentence for every gap in every grammar", "anchors": ["src/lalr.rs:31-159", "src/lalr/table.rs:75-209"]}
{"id": "C93", "title": "A check that settles all texts", "statement": "There is a check of what is built from a grammar file (no literal with the text of a regex, ranges that the pieces refine, no empty class or choice, no transition missing) such that if it succeeds, the grammar is unambiguous and every text is split into the symbols of the grammar in exactly one way and answered with the reductions of their only parse tree if they have one, and as a wrong text if not (a text whose lexemes would be cut inside a character stops with that error). If only the transitions are not all there, and every symbol derives something and every terminal has a text of its own without white space, some text that spells out a parse tree is not parsed back to it; if they are all there, every such text is.", "quantifier": "all grammar files, regex parsers and hash functions for which building succeeds, all texts", "why_tests_cant": "the check is finite, what it settles is the answer to every text; that a gap always shows needs a text for every gap of every grammar", "anchors": ["src/lalr.rs:31-159", "src/lalr/table.rs:75-209", "src/lex/lex.rs:150-260"]}
{"id": "C94", "title": "A check that settles what the types answer", "statement": "There is a check of a grammar file and what is built from it (that of C93; no token that needs a quote, balanced code, no two tokens of the same kind, named literals that can be compared as written) such that if it succeeds, both files are generated and can be read, and for every text within the limits of the type-level library: if the symbols of the text have a parse tree, the Rust parser answers with its reductions, and the type is the value of that tree if the type-level lexer accepts the rest and there are less than 50 tokens and reductions, and not a value otherwise; if they have none, the Rust parser refuses the text and the type is not a value.", "quantifier": "all grammar files, regex parsers and hash functions for which building succeeds, all semantics of the user code that respects the declared types, all texts within the limits", "why_tests_cant": "the check is finite, what it settles is that two parsers agree on every text and on the value", "anchors": ["src/lalr.rs:83-175", "src/codegen/lex_gen.rs", "src/codegen/parse_gen.rs", "ts/lex.ts", "ts/parse.ts"]}
{"id": "C95", "title": "What the parser prints tells how the text was parsed", "statement": "The parser returns an empty string; what it prints is its only answer.  For an accepted text the lines \"reducing by\" are the rules of the parse tree in post-order, and the last lines say that it was accepted and give the number of its leaves and nodes plus one; three lines are printed for a leaf, four for a node, and four at the end.  The stack is printed from its bottom to its top: a shift adds the state to the end of what is printed, a reduction takes some off the end before it adds one.  For a refused text they are the rules of trees for exactly the tokens before the one reported.  Two accepted texts for which the same is printed are the same sequence of tokens; if no two symbols look the same and no alternative is written twice, the lines \"reducing by\" are enough for that.", "quantifier": "all grammars whose names and symbols contain no line end, all token sequences, all ways in which tokens are shown", "why_tests_cant": "quantifies over all pairs of runs of the parser, of any length", "anchors": ["src/lalr.rs:89-159", "src/parser/mod.rs:261-271", "src/parser/mod.rs:308-326"]}
{"id": "C96", "title": "A symbol of the grammar file and the lowered symbol say the same", "statement": "Whatever names are put on a symbol, InputSymbol::is_terminal and as_non_terminal answer as Symbol's do for the lowered symbol: a terminal exactly if it does not stand for a nonterminal.  The token definition and regular expression are the same from both, and Symbol::to_token_def is the definition of to_token_def_with_regex.", "quantifier": "all symbols, all regex parsers, all token numbers", "why_tests_cant": "symbols nest to any depth and the regex parser is arbitrary", "anchors": ["src/parser/ast.rs:46-106", "src/parser/mod.rs:180-236"]}
{"id": "C97", "title": "How high the stack of the parser gets", "statement": "The heights of the stack after each iteration are those of a walk through the trees built so far, so the highest one of an accepted text is one more than its parse tree needs.  It grows only with the number of times a way down the tree leaves a node by another subtree than the first.  If no rule comes back to itself other than at the start of a body, one number bounds the stack at all times on every input, accepted or not.  If some name used from the start does come back to itself elsewhere, every symbol derives something and no transition is missing from the tables, the sentences have no such bound.  Which of the two holds can be computed from the grammar.", "quantifier": "all grammars with tables, all token sequences, all moments of a run", "why_tests_cant": "the bound is for inputs of every length and for every grammar of the class; a test sees one input", "anchors": ["src/lalr.rs:75-160"]}
