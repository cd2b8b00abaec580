# Formal model of zackradisic/typelalr in Coq 8.16.1

The development lives in `rocq/theories`.  It is a function-by-function, executable
Gallina model of the Rust crate (lexer generator, LALR(1) generator, parser driver, code
generators) and of the type-level TypeScript runtime, with the properties of
`properties.jsonl` proved about it.  The Rust code is never run; the tie to the code is the
file/line citation on each definition.

## Modelling conventions

* A panic is a value: `res A := Ok a | Panic p | Diverge` (`Base.v`).  `Diverge` means the
  loop or recursion did not finish within the fuel given.  Every fuel the model passes is
  proved sufficient, except for `first`, where running out of fuel is proved equivalent to
  real non-termination (stack overflow).
* `&mut` becomes state passing.  Loops are `run step bits`, which performs up to `2^bits`
  iterations of a step function (structural recursion on `bits`, so it evaluates well and
  exponential bounds such as "number of subsets" are available as real fuel).
* `BTreeSet`/`BTreeMap` are strictly sorted lists / association lists over an `Ord` class
  (`Base.v`), so equality of sets is Leibniz equality, as in Rust.  `IndexSet`/`IndexMap` are
  duplicate-free lists in insertion order.  `HashSet` iteration order is an arbitrary
  permutation, universally quantified in the theorems.
* `char` is `N`, `str` is `list N` (code points).  UTF-8 lengths and byte slicing are
  modelled where the code uses byte offsets (`make_tok`, `DFA::test`).
* Indices (`usize`, `u32`) are `nat`; the casts `as u32` are treated as exact (a table would
  need 2^32 entries to wrap).  `OptionUsize` is modelled with its sentinel in
  `OptionUsize.v`, where it is proved equivalent to `option`; elsewhere `option nat` is used.

## Trusted base

* Coq 8.16.1's kernel, including `vm_compute` (used for witnesses and examples only).
* Axioms: none.  `Print Assumptions` follows every theorem in the `Props*.v` files and prints
  "Closed under the global context" for each.  Only Coq's own standard library is imported.
* The reading of the Rust and TypeScript sources that the definitions record.  Each definition
  cites the lines it models and says what it simplifies.  Three checks back this up.
  `RepoTests.v` runs every unit test of `/repo/src` on the model, with the results the code
  asserts; the tests that only run the code run without a panic there too.  On the
  committed grammar `basic_lisp.tlalr` the model of the lexer generator writes
  `ts/lex_state.gen.ts` and the model of the character table writes `ts/chars.ts` byte for
  byte, and the model of the parser generator writes `ts/parse_state2.gen.ts` token for token
  apart from `extends string` (the committed file was generated before that was broken);
  these are `Example`s, that is tests.

## What is modelled

| code | model |
|------|-------|
| `option_usize.rs` | `OptionUsize.v` |
| `lex/nfa.rs` (`from_regex`, `regex`, `compile`, `epsilon_closure`, `simulate`) | `Regex.v`, `Nfa.v` |
| `lex/dfa.rs` (`remove_overlap`, `from_nfa`, `test`, `simulate`) | `Overlap.v`, `Dfa.v` |
| `lex/lex.rs` (`lex`, `make_tok`, `Token`) | `Lex.v` |
| `parser/mod.rs`, `parser/ast.rs` (`Grammar::from_ast`, tables of tokens and productions, `Ord`) | `Grammar.v`, `LexGrammar.v`, `Support.v` |
| `parser/support.rs` | `Support.v` |
| functions of `parser/ast.rs` and `parser/mod.rs` on symbols that nothing calls | `SymApi.v` |
| `parser/grammar.lalrpop`, `lib.rs` (`parse_grammar`) | `GrammarFile.v` |
| `lalr/first.rs`, `lalr/item.rs`, `lalr/table.rs` | `First.v`, `Item.v`, `Table.v` |
| `lalr.rs` (`Lalr::new`, `parse`, `parse_impl` and its error message) | `Parse.v`, `Lalr.v`, `Report.v` |
| the same in a release build, and the iteration counter of `parse_impl` in a debug build | `Release.v`, `ReleaseAll.v` (elsewhere a debug build without that counter) |
| the lines that `parse_impl` prints, with `Display` of symbols and `Debug` of productions | `Trace.v` |
| `codegen/lex_gen.rs`, `codegen/parse_gen.rs` | `Text.v`, `LexGen.v`, `ParseGen.v` (the text written, character by character) |
| `ts/util.ts`, `ts/lex.ts`, `ts/parse.ts` | `TsUtil.v`, `TsLex.v`, `TsParse.v` (each conditional type a Gallina function on the types it inspects) |

The generated text is given a meaning by an independent reader of the fragment of TypeScript
the generators use: `TsText.v` (strings, comments, punctuation), `TsTables.v` (declarations of
the lexer file) and `TsModule.v` (declarations of the parser file).  The theorems on generated
files say what the reader finds in the text the generator writes.

## Not modelled (trusted or out of scope)

* `regex_syntax` parsing of regex text and `regex::escape`: the model starts at the `Hir`
  tree; the parser is a parameter (`parse`) of `lalr_new`, universally quantified.  For string
  literals we take `parse(escape(s))` to be the concatenation of the literal characters (a
  single literal, or Empty for the empty string), as documented by that crate.
* lalrpop's translation of `grammar.lalrpop` into an LR(1) parser and a lexer is trusted to
  implement that grammar; the grammar itself, its terminals, actions and the longest-match rule
  are modelled (`GrammarFile.v`).  `file_ast` is the shape of ASTs that the theorems about
  grammar files assume; C52 proves that every AST read from a text has it.
* `bumpalo`, `println!` debugging output (except that of the loop of `parse_impl`, in `Trace.v`;
  elsewhere the reductions made are the result of `parse_impl` in the model: the code always
  returns an empty string), other `Debug`/`Display` impls, file writing in tests, `BitVec`/`ManuallyDrop` memory layout.
* `DefaultHasher`: `core_hash` is an arbitrary function of the list of items; theorems about
  merging assume it has no collision on the cores that occur, and say so in the statement.
* Debug builds, in which `debug_assert!` and arithmetic overflow panic, except in `Release.v` and `ReleaseAll.v`;
  C58 says when release builds do the same.
* The user's code in the rules and TypeScript's type checker: the code of a rule is an
  arbitrary function of the symbols popped, `extends` on values is an arbitrary predicate, and
  the compiler's own limits on instantiation depth are not modelled.

## Defects found

Proved as `_refuted` theorems beside the conditional theorem for each property: C04 (overlapping
ranges are not made disjoint), C06/C09/C10/C13/C15/C17 (consequences for the lexer), C07 (`test`
accepts prefixes), C13/C15 (input dropped at the end), C14 (byte/char confusion), C16/C18 (token table collisions),
C20/C21 (FIRST with ε, left recursion), C26/C27/C28 (wrong conflicts, missing transitions,
silently resolved conflicts), C30–C33 and C36 (consequences for the parser), C34, C37–C39, C41,
C42, C47, C49 (generated files), C43 (at most 49 steps), C46 (escapes kept), C48, C50, C53 (two alternatives
on one line lose one), C54 (no escapes in regexes but two), C55 and C56 (error reports), C57 (the type of a
text ignores a cut-off token at its end), C58 (hash collisions in release builds; the loop counter), C84 and C88
(natural operator grammars that get tables and are then mis-parsed, because the transitions of merged
states are not found again).
Noticed and not proved: `parse_gen` computes a pop count that drops ε and EOF (no grammar file
can contain them); an unnamed `Named` symbol unwraps `None`; `Lalr::parse` returns an empty string.

## Plan per property

| id | model | how it is proved |
|----|-------|------------------|
| C01 | `Nfa.v` compile/simulate over `hir` | Thompson invariant by induction on the tree; closure = reachability; any iteration order |
| C02 | `Nfa.v` | induction on the tree against an independent syntactic predicate |
| C03 | `Overlap.v` add_range as work list + `run` | total range length decreases at each split; coverage invariant |
| C04 | `Overlap.v` | false in general: `_refuted` witness; proved for families where the first character of a range that overlaps another without being nested is in no third range of more than one character; end points are kept, and the pieces refine the ranges exactly if only equal pieces overlap |
| C05 | `Dfa.v` build | number of distinct sorted subsets bounds the loop |
| C06 | `Dfa.v` | subset-construction invariant; needs the pieces of C04 to refine the ranges (`split_refines`, which can be computed), with a refutation without it |
| C07 | `Dfa.v` test/simulate | false: `_refuted` witnesses (prefix accepted, empty string, multi-byte) |
| C08 | `Dfa.v` simulate | induction on the string |
| C09-C15 | `Lex.v`, spec in `LexSpec.v` | refinement of the loop to a declarative tokenisation on regular languages; C13, C14 (non-ASCII), C15 (input ending inside a token) have `_refuted` witnesses and conditional theorems; C14 for any text against the UTF-8 bytes (`Utf8Spec.v`, `Utf8Proofs.v`) |
| C16, C17 | `LexGrammar.v` | lookup lemmas; name collision refuted |
| C18, C19 | `Grammar.v` | sorted-list lemmas |
| C20, C21 | `First.v` | leftmost-derivation relation; left recursion diverges for every fuel (refutation of C21), otherwise terminates |
| C22-C24 | `Item.v` | inductive least closure; counting argument for termination |
| C25 | `Table.v` merge_cores | grouping lemmas, collision-freedom as hypothesis |
| C26-C28 | `Table.v` make_lalr_tables | invariant of the insertion loops; C27, C28 false, with witnesses and conditional theorems; `PropsViable` restates C27 by rightmost derivations |
| C29-C33 | `Parse.v` | stack invariant (soundness), induction on trees (completeness, needs C28's conclusion), node counting (termination) |
| C34 | `Grammar.v`/`Item.v` | induction over reachability |
| C35 | `OptionUsize.v` | arithmetic on a 64-bit sentinel |
| C36 | `Lalr.v`, `EndSpec.v`, `EndProofs.v` | composition of C15–C19 and C29–C33; exact acceptance from C30; two refutations |
| C37-C39, C47 | `ParseGen.v`, reader `TsModule.v`, spec `ParseGenSpec.v` | the reader is run on the generated text symbolically, by induction on the tables; conditions on quotes, code and names with a refutation for each |
| C40, C41, C49 | `LexGen.v`, reader `TsTables.v` | the same for the lexer, character and arithmetic files |
| C42 | `TsLex.v` | lock-step simulation, on the generated tables, with the Rust loop that takes texts by characters (`make_char`, `LexLoop.v`); the Rust lexer itself is that loop with byte slices |
| C43 | `TsParse.v`, spec `TsParseSpec.v` | simulation with the Rust parser up to the recursion limit |
| C44 | `TsUtil.v` | against arithmetic on `nat` and list functions |
| C45 | `Support.v` | list lemmas |
| C46, C48 | `Support.v` | counter-examples; exact conditions |
| C50 | C42 and C43 composed | `PropsTsParse.v` |
| C51-C54 | `GrammarFile.v`, spec `GrammarFileSpec.v` | recursive descent against derivations; printing one token per line for expressibility; refutations by evaluation |
| C55, C56 | `Report.v`, spec `ReportSpec.v` | items are reached from the start item by finitely many steps, so the stack continues to a sentence; the run depends only on the tokens read; for unmerged states every lookahead is promised by a derivation |
| C57 | C51, C15, C30, C42, C43 and C50 composed | `PropsWhole.v`; the leaves of the tree are the lexer's tokens because kinds are distinct |
| C58 | `Release.v`: the functions with a debug assertion or a subtraction, without the check; `ReleaseAll.v`: everything that calls them | invariants of C03, C25, C32 and C51 exclude the checks; the counter by counting iterations |
| C59 | `grammar_from_ast`, tables, driver and lexer of two ASTs; `IsoSpec.v`: the same rules up to order and names | bijections of productions, token indices and names carry the sets of C22–C28 over to each other; the two drivers run in step |
| C60 | states and lookaheads of the tables; `ViableSpec.v`: rightmost derivations, valid items, viable prefixes | the LR(1) state along a prefix holds exactly the items valid after it, by induction on the derivation and on the prefix; then C26 |
| C61 | `from_nfa`, `from_tokens` | each new state is entered by an edge from an earlier one, an invariant of the construction; then C06 and co-accessibility of the NFA |
| C62 | `grammar_from_ast`, tables, driver and lexer of an AST and of the AST with rules added; `UselessSpec.v`: the names the start symbol needs | the bijections of C59, restricted to the rules and tokens in use; all item sets keep to these; the drivers run in step, with different bounds on the steps, which C31 shows to be enough. False of texts when the added rules have new tokens (`C62_text_refuted`: a literal of a useless rule takes the lexeme of a regex) |
| C63 | iterations of the loops of `lex` and `parse_impl` (`nsteps` of the model's step functions), the depth of the stack, states of `from_regex`, `lex_nfa`, `from_nfa` | lexing: a measure that each iteration lowers, n(n+1)/2 at the start; a run of that length for two tokens and every n (`C63_lex_linear_refuted`). Parsing: the measure of C31. States: an exact count by induction over the regex; for `(a\|b)*a(a\|b)^k` the words of length k+1 lead to different states (`C63_dfa_polynomial_refuted`) |
| C64 | `lex` and `LALR::parse` on two texts that differ in white space | no word the automaton has a path for contains white space if no range written in the definitions covers it; then by induction over the division of the text into tokens (`Tokenize`), which is unique. Three counterexamples to the full statement (`C64_white_space_refuted`) |
| C65 | `lex` on two texts, and on both with white space between them | as C64: induction over the division of the first text into tokens; whether it is read to the end is seen by what comes after it (`goes_on`). Four counterexamples to the full statement (`C65_separate_refuted`) |
| C66 | `items`, `merge_cores`, `make_lalr_tables` | states have different cores (C26), which are sets of items: counting. Against a polynomial bound, a family of grammars (`kth_ast`): every LR(1) state is described, so no two items want the same entry and the tables are built (C27); which of the `Y_i` are expected after a word of `k + 1` letters tells the word, by induction over the word |
| C67 | `parse_grammar`, `grammar_from_ast`, `lalr_new`, `lex_generate`, `parse_generate` | every step returns iff its own condition holds (C02, C05, C24, C27, C52 and, for the generators, by induction over the symbols of each body); put together |
| C68 | spec `TsErrorSpec.v`; `ParseImpl` with the symbol stack, `EmitProduction`, `parse_step` | the simulation of C43 step by step without conditions on the code: at every step the stack denotes the trees of the Rust parser over the tokens read; where it stops decides the result |
| C69 | `Lex::lex`, `Lalr::parse`, the generated files and `Parse<Lex<s>>` | white space ends every token, so maximal munch finds exactly the texts written; then C36 and C57. Conversely the tokens read are texts of their own |
| C70 | as C59, with `lex` and `convert_tokens` of two lexers; `IsoSpec.v`: the rules under a map of symbols, `SpellSpec.v`: terminals with the same texts | the bijections of C59 for any map of symbols that keeps what they are; maximal munch depends on the languages and on which of two overlapping terminals is first only |
| C71 | as C43 and C50; `LongSpec.v`: leaves and inner nodes of a tree | the simulation of C43 takes one step per node of the tree; for the committed grammar a weight of symbols bounds the leaves by the inner nodes |
| C72 | as C51; `CommentSpec.v`: beginnings of lines, comments, places inside quotes | a beginning of a line is between tokens or inside quotes; no token begins with a slash; a longer literal gives another AST |
| C73 | as C27; `LlSpec.v`: what begins with a terminal, LL(1), used and useful symbols, by derivations | the number of replacements that lead from a symbol to a terminal is determined, so every LR(1) state is the closure of one item and no symbol is left-recursive; trees by induction on the tree |
| C74 | as C27 and C30; `CommonSpec.v`: two rules of one name with the same beginning | C30's tree for an accepted input enters the rule in a state with both items; they stay together along the common beginning, and where the terminal is shifted C27 allows one item only |
| C75 | as C28 and C30; `RegularSpec.v`: right-linear and left-linear grammars | right-linear: the only lookahead is the end, by induction on states and closure; left-linear: behind the initial state a state is what begins with some symbols; so equal cores mean equal states (C28), and C30, C31, C33 apply; the height of the stack follows from the items at its top, since in a left-linear grammar every rule begins where the start does; texts through C93 |
| C76 | as C30 and C36; `ExtendSpec.v`: rules contained in rules, the same rule in two grammars | the tree of what was accepted (C30) is mapped to the larger grammar; the lexers are equal up to the numbers of the tokens |
| C77 | as C36 and C57, for `basic_lisp.tlalr` as read by C51; `LispSpec.v`: lists, how they are written, their reductions and values, without any grammar | texts to tokens: the four tokens and their beginnings are computed and `Tokenize` is followed token by token; tokens to lists: induction on parse trees and on ways to write; C36 and C57 do the rest, with `closed` and `split_refines` checked by computation |
| C78 | as C30 and C21; `OperatorSpec.v`: rules E -> E m E | a name before E needs FIRST of a left-recursive name (C24); otherwise, if the rule is used, the state after E m E and the state after the first E have the same only item with the token of m after the dot, lookaheads go round through the last E, so the transition is found, its token is a lookahead, and the table would have two entries |
| C79 | as C27, C30, C36; `OwnSpec.v`: names instead of tokens, their rules behind | derivations correspond step by step, so FIRST agrees; every LR(1) state of the new grammar is the image of one of the old grammar or the single item of a new rule; images have the same core only if the states have, so a conflict goes back; then C74. Trees: the new rules' nodes are collapsed to leaves, or leaves expanded |
| C80 | as C13, C14, C36, C55 | induction on tokenisation: a text that no token can continue stays so when text is added; byte offsets inside the old text cut the new one at the same places; the parser looks at no token behind the current one |
| C81 | as C02, C24, C27, C51 | every panic of the collection is a failed lookup, traced through the loops to an item whose additions fail; from there FIRST leads to a name without rules; the endless runs as in C24; the rest from what merging and the tables return |
| C82 | as C14, C16, C31, C32, C36, C55 | the conversion of tokens without the condition of C36, with literals taken for regexes; then the outcomes of the parser one by one, an endless run being a cycle of unit reductions of items that can be reached |
| C83 | as C26, C28, C30, C81, C82 | specification of expressions, precedence and associativity in `LayerSpec`; every LR(1) state is one of four shapes in one of two contexts (in brackets or not), by induction over the collection; so of three states with one core two are equal, no two items want the same token, and C28 and C81 apply; trees are the readings by induction |
| C84 | as C26, C28, C30, C81, C82 | specification of operators, levels and expressions in `MixSpec`; every LR(1) state is the closure of a kernel given by where it is (at the start, inside an operator after some of its parts, or after an operand of a level) and by the context (what may follow), by induction over the collection; states with one core have one shape and differ only in the context; every shape is reached with every context of its sort, so a merged state is the union over the contexts and the union of the targets is the target of the union: every transition is found; trees are the readings by induction. False for operators that associate to neither side and for inner operands of higher levels (`C84_nonassoc_refuted`, `C84_levels_refuted`) |
| C85 | as C57, C84 | values and number of rules of an expression as functions in `MixEvalSpec`; the value of a tree (C57) is that of its expression by induction over the tree (`MixEval`), with C57 for the files and C84 for the transitions |
| C86 | as C84 | report from C55 with the closed tables of C84; steps counted by an invariant of the loop and the rules of an expression (C85); states mapped one to one to positions in rules through the shapes of `MixProofs`; brackets put in by recursion over the expression (`MixUse`) |
| C87 | as C84, with C69 and C85 | brackets put in by recursion (`MixPrint`), the texts of an expression paired with its terminals, then C69 for the text and C85 for the type |
| C88 | as C84 | the states of C84 with two more kinds: after a list and after the first element of a list (`SeqProofs`); what follows an expression is now a pair of terminals (separator and end of the list). An operator may end with an expression of another sort (JSON's pairs) if its sort has one context, so that the expression at the end has the same (`closes_ctx`). False when a list has two ends (`C88_ends_refuted`) or such a sort two contexts (`C88_tails_refuted`) |
| C89 | as C88 and C57 | as C85: induction on parse trees gives the expression, the number of nodes and the value together (`SeqEval`), for lists by adding an element at the end |
| C90 | as C88 | as C86: C55 and C63 with what C88 says of the sentences; the size of an expression is at most the number of tokens (`SeqUse`), and a state stands for at most one position after a symbol |
| C91 | as C88 and C69 | as C87: brackets are added bottom up, in lists element by element (`SeqPrint`); C69 then gives the parse and the type |
| C92 | as C30 | for an item of a state C60 gives a prefix after which it is valid, its rightmost derivation is completed to a tree that needs the transition (`due_tree`, `item_tree`), and C30's exact condition says that the tree is found only if all its transitions are there; the other way is C30 and C33; `complete_b` decides it |
| C93 | as C36 and C82 | `sound_b` is the check; C36, C82 and C33 give what it settles; for the gap the tree of C92 is written down as in C69 |
| C94 | as C57 and C93 | `types_b` is the check; C57 gives the value, C93 the answer of the Rust parser and that there is only one tree |
| C95 | `Trace.v`: the lines printed by the loop, `Display` of symbols and productions; how a token is shown is a parameter | the lines are read back by `TraceSpec.v`; the loop that prints simulates the loop that parses; for two runs that print the same, the stacks and the trees on them agree up to rules written twice, since a state is entered on one symbol only; literals with spaces or line ends give two witnesses |
| C96 | `SymApi.v`: the public functions on symbols that nothing in the program calls | by induction on the names put on a symbol; for literals the two definitions differ, and the theorem says exactly how |
| C97 | the loop of the parser; `HeightSpec.v` has the walk through a tree, what a tree needs and the class of grammars | invariant of the run: the trees on the stack tell all heights so far; induction on trees for the bound; for the class, the way back from an item to the rule it was begun for, whose rank is higher; a way that leaves more rules later than there are rules repeats a name, and a name that comes back later is pumped |

Theorems are in the `Props*.v` files: `PropsRegex` (C01–C04, C35), `PropsLex` (C05–C15),
`PropsGrammar` (C16–C21), `PropsItem` (C22–C24, C34), `PropsTable` (C25–C28), `PropsMerge` (C28), `PropsParse`
(C28–C33), `PropsEnd` (C36), `PropsParseGen` (C37–C39, C47), `PropsLexGen` (C40, C41, C49),
`PropsTsLex` (C42), `PropsTsParse` (C43, C50), `PropsTsUtil` (C44), `PropsSupport` (C45, C46, C48),
`PropsGrammarFile` (C51–C54), `PropsReport` (C55, C56), `PropsWhole` (C57), `PropsRelease` and `PropsBuilds` (C58), `PropsIso` (C59),
`PropsViable` (C60, C56, C27), `PropsReach` (C61),
`PropsUseless` (C62), `PropsCost` (C63), `PropsWhite` (C64, C65), `PropsSize` (C66), `PropsGenerate` (C67), `PropsTsError` (C68), `PropsPrint` (C69), `PropsSpell` (C70), `PropsLong` (C71), `PropsComment` (C72), `PropsLl` (C73), `PropsCommon` (C74), `PropsRegular` and `PropsRegularStack` (C75), `PropsExtend` (C76), `PropsLisp` (C77), `PropsOperator` (C78), `PropsOwn` (C79), `PropsAppend` (C80), `PropsOutcome` (C81), `PropsParseEnd` (C82), `PropsLayer` (C83), `PropsMix` (C84), `PropsMixType` (C85), `PropsMixUse` (C86), `PropsMixPrint` (C87), `PropsSeq` (C88), `PropsSeqType` (C89), `PropsSeqUse` (C90), `PropsSeqPrint` (C91), `PropsComplete` (C92), `PropsCheck` (C93), `PropsTsCheck` (C94), `PropsTrace` and `PropsTraceFile` (C95), `PropsSymApi` (C96), `PropsHeight`, `PropsHeightExact`, `PropsHeightCheck`, `PropsHeightFile` and `PropsHeightText` (C97).

## Wrong programs

`tools/mutants.py` lists edits to the model as a realistic bug would make them; `tools/mutate.py`
applies each to a scratch copy, rebuilds, replaces every lemma that no longer proves by
`Admitted` (in the scratch copy only) and records which theorems then depend on an admitted
lemma, that is which ones failed.  Only the theorem files of the property named by the edit are
built and checked (`ALL=1` checks all of them), so the lists of failed theorems in
`seeded/LOG.jsonl`, which has the outcome of each, are not complete.
