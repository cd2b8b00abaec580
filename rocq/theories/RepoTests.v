(** The repository's own unit tests, run on the model.  These are checks that the model does what
    the code is expected to do, not properties: every line is an [assert!] of /repo/src, or, where
    the test only runs the code, the fact that the run ends.  The patterns are given as the trees
    regex-syntax parses them to, since that parser is not modelled. *)
From Coq Require Import String.
From Verif Require Import Base Regex Nfa Dfa Lex Text Grammar First Item Table LexGrammar Parse Lalr GrammarFile LexGen ParseGen.
From Verif Require Import Witness.
Local Open Scope list_scope.

(** A pattern of plain characters.  As in nfa.rs:575. *)
Definition lits (s : string) : hir := HConcat (map HLit (tx s)).
(** The patterns of the tests.  nfa.rs:604-664, dfa.rs:388-452, lex.rs:345-460. *)
Definition c1 (c : N) : hir := HLit c.
Definition cls (l : list (N * N)) : hir := HClass l.
Definition star (h : hir) : hir := HRep ZeroOrMore h.
Definition plus (h : hir) : hir := HRep OneOrMore h.
Definition opt (h : hir) : hir := HRep ZeroOrOne h.
Definition digit : hir := cls [(48, 57)%N].
Definition digit1 : hir := cls [(49, 57)%N].
Definition idchar : list (N * N) := [(65, 90); (95, 95); (97, 122)]%N.

(** nfa.rs:575-577: [Parser::parse], [NFA::from_regex], [simulate]. *)
Definition nfa_ok (h : hir) (s : list N) : option bool :=
  match (let* n := from_regex h in nfa_simulate (fun _ l => l) n s) with Ok b => Some b | _ => None end.
(** dfa.rs:388-390: [NFA::from_regex], [DFA::from_nfa], [test]. *)
Definition dfa_ok (h : hir) (s : string) : option bool :=
  match (let* n := from_regex h in let* d := from_nfa n in d_test d (tx s)) with Ok b => Some b | _ => None end.

(** nfa.rs:574-590 [test], [simple]. *)
Example nfa_test : nfa_ok (lits "lolfucku") (tx "lolfucku") = Some true.
Proof. vm_compute. reflexivity. Qed.
Example nfa_simple : let s := tx "lolfucku" ++ [9989%N] in nfa_ok (HConcat (map HLit s)) s = Some true.
Proof. vm_compute. reflexivity. Qed.

(** nfa.rs:592-603 [alternation]. *)
Example nfa_alternation :
  map (fun s => nfa_ok (HAlt [lits "lmao"; lits "lol"; lits "bruh"]) (tx s)) ["lmao"; "lol"; "bruh"; "dflsdjf"]%string =
  [Some true; Some true; Some true; Some false].
Proof. vm_compute. reflexivity. Qed.

(** nfa.rs:605-643 [zero_or_more], [one_or_more], [optional]. *)
Definition bcd (h : hir) : hir := HConcat (h :: map HLit (tx "bcd")).
Definition bcd_words : list string := ["bcd"; "abcd"; "aaaabcd"; "aaaaaaabcd"; "cbcd"]%string.
Example nfa_zero_or_more :
  map (fun s => nfa_ok (bcd (star (HLit 97))) (tx s)) bcd_words = map Some [true; true; true; true; false].
Proof. vm_compute. reflexivity. Qed.
Example nfa_one_or_more :
  map (fun s => nfa_ok (bcd (plus (HLit 97))) (tx s)) bcd_words = map Some [false; true; true; true; false].
Proof. vm_compute. reflexivity. Qed.
Example nfa_optional :
  map (fun s => nfa_ok (bcd (opt (HLit 97))) (tx s)) bcd_words = map Some [true; true; false; false; false].
Proof. vm_compute. reflexivity. Qed.

(** nfa.rs:645-657 [negate]. *)
Example nfa_negate :
  map (fun s => nfa_ok (star (cls [(0, 96); (98, 1114111)]%N)) (tx s)) ["bcd"; "cbcd"; "abcd"; "aaaabcd"; "aaaaaaabcd"]%string =
  map Some [true; true; false; false; false].
Proof. vm_compute. reflexivity. Qed.

(** dfa.rs:386-431 [sanity] to [sanity4]. *)
Example dfa_sanity :
  map (dfa_ok (HConcat [star (HLit 97); HLit 97; HLit 98])) ["aaaaaab"; "ab"; "b"]%string = map Some [true; true; false].
Proof. vm_compute. reflexivity. Qed.
Example dfa_sanity2 :
  map (dfa_ok (HConcat (star (HGroup (lits "fuck")) :: map HLit (tx "fuckyou")))) ["fuckfuckyou"; "fuckkkk"]%string =
  map Some [true; false].
Proof. vm_compute. reflexivity. Qed.
Example dfa_sanity3 :
  map (dfa_ok (HConcat (star (HGroup (HAlt (map HLit (tx "fuck")))) :: map HLit (tx "fuckyou"))))
      ["fffuuuucccckkkfuckyou"; "fuckkkkfuckyou"; "fuckyou"; "fuckyou"; "ffuckyou"; "zfuckyou"]%string =
  map Some [true; true; true; true; true; false].
Proof. vm_compute. reflexivity. Qed.
Example dfa_sanity4 : map (dfa_ok (HLit 113)) ["q"; "qqq"; "a"; ""]%string = map Some [true; false; false; false].
Proof. vm_compute. reflexivity. Qed.

(** dfa.rs:433-471 [number], [identifier], [optional]. *)
Example dfa_number :
  (let* n := from_regex (plus digit) in let* d := from_nfa n in d_simulate d (tx "420")) = Ok (Some 3).
Proof. vm_compute. reflexivity. Qed.
Definition identifier : hir := HConcat [cls idchar; star (cls ((48, 57)%N :: idchar))].
Example dfa_identifier :
  map (dfa_ok identifier) ["foo"; "_foo"; "foo_123_lsdkfj"; "9foo"; ""]%string = map Some [true; true; true; false; false].
Proof. vm_compute. reflexivity. Qed.
Example dfa_optional :
  map (dfa_ok (bcd (opt (HLit 97)))) bcd_words = map Some [true; true; false; false; false].
Proof. vm_compute. reflexivity. Qed.

(** lex.rs:272-307: the helpers [new_token], [new_token_val], [tok], [tok_val]. *)
Definition new_token (n : string) (h : hir) : token_def * hir := (TokenDef (tx n) false None, h).
Definition new_token_val (n : string) (h : hir) : token_def * hir := (TokenDef (tx n) true None, h).
Definition tok_ (n : string) : token := Token (tx n) None.
Definition tok_val (n v : string) : token := Token (tx n) (Some (tx v)).
Definition lexes (l : list (token_def * hir)) (s : string) : res (list token) :=
  let* L := from_tokens l in lex L (tx s).

(** lex.rs:309-315 [sanity]; it only runs. *)
Example lex_sanity :
  lexes [new_token_val "c" (HLit 99); new_token_val "d" (HLit 100)] "cdd" =
  Ok [tok_val "c" "c"; tok_val "d" "d"; tok_val "d" "d"].
Proof. vm_compute. reflexivity. Qed.

(** lex.rs:325-340 [string]; it only runs, and what it prints is not asserted. *)
Definition dotstar : hir := HConcat [HLit 34; star (cls [(0, 9); (11, 1114111)]%N); HLit 34].
Example lex_string : lexes [new_token_val "string" dotstar] """hello"" noob" = Ok [tok_val "string" """hello"""].
Proof. vm_compute. reflexivity. Qed.

(** lex.rs:342-352 [lex]. *)
Example lex_lex :
  lexes [new_token "number" (plus digit); new_token "+" (HLit 43)] "420 + 69" = Ok [tok_ "number"; tok_ "+"; tok_ "number"].
Proof. vm_compute. reflexivity. Qed.

(** lex.rs:355-372 [precedence_longest2], [precedence_longest]. *)
Example lex_precedence_longest2 :
  lexes [new_token "bb" (lits "bb"); new_token "bbb" (lits "bbb")] "bbbbb" = Ok [tok_ "bbb"; tok_ "bb"].
Proof. vm_compute. reflexivity. Qed.
Definition ab (k : rep_kind) : hir := HConcat [star (HLit 97); HRep k (HLit 98)].
Example lex_precedence_longest :
  lexes [new_token "abbb" (lits "abbb"); new_token "a*b+" (ab OneOrMore)] "abbbbbbb" = Ok [tok_ "a*b+"].
Proof. vm_compute. reflexivity. Qed.

(** lex.rs:374-397 [precedence_tie]. *)
Example lex_precedence_tie :
  let x := new_token "a*b+" (ab OneOrMore) in let y := new_token "a*b*" (ab ZeroOrMore) in let z := new_token "abbb" (lits "abbb") in
  map (fun l => lexes l "abbb") [[x; y; z]; [y; x; z]; [z; x; y]] = [Ok [tok_ "a*b+"]; Ok [tok_ "a*b*"]; Ok [tok_ "abbb"]].
Proof. vm_compute. reflexivity. Qed.

(** lex.rs:398-427 [capture], [capture2]. *)
Example lex_capture :
  lexes [new_token_val "number" (star digit); new_token_val "op" (HAlt [HLit 43; HLit 45])] "420 + 69" =
  Ok [tok_val "number" "420"; tok_val "op" "+"; tok_val "number" "69"].
Proof. vm_compute. reflexivity. Qed.
Example lex_capture2 :
  lexes [new_token_val "number" (star digit); new_token "+" (HLit 43)] "420 + 69" =
  Ok [tok_val "number" "420"; tok_ "+"; tok_val "number" "69"].
Proof. vm_compute. reflexivity. Qed.

(** lex.rs:429-450 [simple_lang]. *)
Example lex_simple_lang :
  lexes [new_token "let" (lits "let"); new_token_val "number" (star digit); new_token "+" (HLit 43);
         new_token_val "identifier" identifier; new_token "=" (HLit 61); new_token ";" (HLit 59)] "let foo = 420;" =
  Ok [tok_ "let"; tok_val "identifier" "foo"; tok_ "="; tok_val "number" "420"; tok_ ";"].
Proof. vm_compute. reflexivity. Qed.

(** lex.rs:452-488 [lisp].  In the second class of [symbol] the source text has a range from the full stop to 0, a hyphen and a 9. *)
Example lex_lisp :
  lexes [new_token "(" (HLit 40); new_token ")" (HLit 41);
         new_token_val "symbol" (HConcat [cls [(42, 43); (45, 46); (65, 90); (95, 95); (97, 122)]%N;
                                          star (cls [(45, 48); (57, 57); (65, 90); (95, 95); (97, 122)]%N)]);
         new_token_val "string" (HConcat [HLit 34; star (cls [(0, 33); (35, 1114111)]%N); HLit 34]);
         new_token_val "int" (HConcat [digit1; star digit]);
         new_token_val "float" (HConcat [opt (cls [(43, 43); (45, 45)]%N);
                                         opt (HGroup (HConcat [star digit; cls [(46, 46)]%N])); plus digit])]
        "(print ""Stuff"" ""HI"" (+ 400 20) (- 70.0 1.0))" =
  Ok [tok_ "("; tok_val "symbol" "print"; tok_val "string" """Stuff"""; tok_val "string" """HI"""; tok_ "("; tok_val "symbol" "+";
      tok_val "int" "400"; tok_val "int" "20"; tok_ ")"; tok_ "("; tok_val "symbol" "-"; tok_val "float" "70.0";
      tok_val "float" "1.0"; tok_ ")"; tok_ ")"].
Proof. vm_compute. reflexivity. Qed.

(** item.rs:442-452, table.rs:296-306: the grammar of [closure], [items], [merging] and [tables]. *)
Definition cc_text : list N := tx "
            export start S: () = [ 
                <c1: C> <c2: C> => (""nothing to see here"")
            ]

            export C: () = [
                ""c"" <c: C> => (""OK""),
                ""d"" => (""noob"")
            ]
        ".
(** [parse_grammar], [grammar_from_ast_productions], as in item.rs:455-456. *)
Definition grammar_of (text : list N) : res grammar := let* ast := parse_grammar text in grammar_from_ast ast.


(** An item set as [ItemSetDebug] shows it: the name, the symbols, the place of the point, the look-aheads.
    item.rs:350-404, without the layout. *)
Definition shown (g : grammar) (s : item_set) : list (option (str * list sym) * nat * list (option sym)) :=
  map (fun x : (nat * nat) * list nat =>
         let '((p, d), las) := x in
         (option_map (fun pr => (p_name pr, p_syms pr)) (get_production g p), d, map (get_token g) las)) s.

(** item.rs:413-439 [test]; it only runs. *)
Definition foo_text : list N := tx "
            export start Foo: () = [ 
                ""hello"" ""how"" ""are"" ""you"" => ({ hello: ""sir"" }),
                r""[0-9]+"" => ({ hello: ""sir"" }),
                <bruh: Bruh> => (""noice"")
            ]

            export Bruh: () = [
                ""noice"" => (""lmao"")
            ]
        ".
Example item_test :
  (let* g := grammar_of foo_text in
   let* f := first g (match get_production g 0 with Some p => p_syms p | None => [] end) in Ok f) =
  Ok [Grammar.SStr (tx "hello"); Grammar.SStr (tx "noice"); Grammar.SReg (tx "[0-9]+")].
Proof. vm_compute. reflexivity. Qed.

(** item.rs:441-497 [closure]. *)
Example item_closure :
  (let* g := grammar_of cc_text in let* s := closure g initial in Ok (shown g s)) =
  Ok (let C := Grammar.SNon (tx "C") in let c := Grammar.SStr (tx "c") in let d := Grammar.SStr (tx "d") in
      [(Some (tx "S'", [Grammar.SNon (tx "S")]), 0, [Some Grammar.SEof]);
       (Some (tx "S", [C; C]), 0, [Some Grammar.SEof]);
       (Some (tx "C", [c; C]), 0, [Some c; Some d]);
       (Some (tx "C", [d]), 0, [Some c; Some d])]).
Proof. vm_compute. reflexivity. Qed.

(** item.rs:500-521 [items], table.rs:295-318 [merging], 320-371 [tables]; they only run.  Ten item sets and seven
    merged ones are what the textbook example of that grammar has. *)
Example table_tables :
  (let* g := grammar_of cc_text in let* l := items g in let* t := make_tables ehash g in
   Ok (List.length l, List.length (t_states t))) = Ok (10, 7).
Proof. vm_compute. reflexivity. Qed.

(** lib.rs:28-59 [basic]; it only runs. *)
Definition hello_text : list N := tx "
            export start Foo: () = [ 
                ""hello"" ""how"" ""are"" ""you"" => ({ hello: ""sir"" }),
                r""[0-9]+"" => ({ hello: ""sir"" }),
            ]
        ".
(** The patterns of the grammars of the tests, as regex-syntax parses them.  lib.rs:31, lalr.rs:209-327, parse_gen.rs:662-741. *)
Definition test_regex (s : str) : option hir :=
  map_get s
    (fold_right (fun x m => map_insert (fst x) (snd x) m) []
      [(tx "[0-9]+", plus digit); (tx "[1-9][0-9]*", HConcat [digit1; star digit]);
       (tx "[1-9][0-9]+", HConcat [digit1; plus digit]); (tx "[1-9]+[0-9]*", HConcat [plus digit1; star digit]);
       (tx "'[^']*'", HConcat [HLit 39; star (cls [(0, 38); (40, 1114111)]%N); HLit 39]);
       (tx "[^() ]*", star (cls [(0, 31); (33, 39); (42, 1114111)]%N))]).
Example lib_basic :
  (let* g := grammar_of hello_text in let* L := from_grammar test_regex g in lex L (tx "hello how are you 420")) =
  Ok [tok_val "hello" "hello"; tok_val "how" "how"; tok_val "are" "are"; tok_val "you" "you"; tok_val "[0-9]+" "420"].
Proof. vm_compute. reflexivity. Qed.

(** Reading a grammar, [Lalr::new] and [parse], as in lalr.rs:183-193; the reductions are what [parse] prints. *)
Definition runs (text : list N) (input : string) : res (list (option str)) :=
  let* g := grammar_of text in let* l := lalr_new test_regex ehash g in let* r := lalr_parse l (tx input) in
  Ok (map (fun p => option_map p_name (get_production g p)) r).
Definition rules (l : list string) : res (list (option str)) := Ok (map (fun n => Some (tx n)) l).

(** lalr.rs:171 [basic]. *)
Definition basic_text : list N := tx "
            export start S: ({ kind: ""S"", left: C, right: C }) = [ 
                <c1: C> <c2: C> => ({ kind: ""S"", left: c1, right: c2 })
            ]

            export C: ({ kind: ""C"", values: string[] }) = [
                <c1: ""c""> <c2: C> => ({ kind: ""C"", values: [...c2['values']] }),
                <d: ""d""> => ({ kind: ""C"", values: [d]})
            ]
        ".
Example lalr_basic : runs basic_text "cdd" = rules ["C"; "C"; "C"; "S"]%string.
Proof. vm_compute. reflexivity. Qed.

(** lalr.rs:198 [basic_ops]. *)
Definition basic_ops_text : list N := tx "
            export start Exprs: () = [
                Expr Expr => (""nice""),
                Expr => (""also nice"")
            ]

            export Expr: () = [ 
                <int: Int> => ({ kind: ""int"", int })
            ]

            export Int: () = [
                r""[1-9][0-9]*"" => (""lol"")
            ]
        ".
Example lalr_basic_ops : runs basic_ops_text "42 420" = rules ["Int"; "Expr"; "Int"; "Expr"; "Exprs"]%string.
Proof. vm_compute. reflexivity. Qed.

(** lalr.rs:236 [gold_help_me]. *)
Definition gold_help_me_text : list N := tx "
        export start SExpr: ({ kind: ""SExpr"", exprs: Exprs }) = [
            ""("" <exprs: Exprs> "")"" => ({ kind: ""SExpr"", exprs: exprs })
        ]

        export Exprs: (Expr[]) = [
            <eee: Expr> <es: Exprs> => ([eee, ...es]),
            <eee: Expr> => ([eee])
        ]

        export Expr: ({ kind: ""symbol"", value: ""add"" } | { kind: ""int"", value: string } | { kind: ""sexpr"", sexpr: SExpr }) = [ 
            <sexpr: SExpr> => ({ kind: ""sexpr"", sexpr: sexpr }),
            <str: ""add""> => ({ kind: ""symbol"", value: str }),
            <int: r""[1-9][0-9]+""> => ({ kind: ""int"", value: int })
        ]
    ".
Example lalr_gold_help_me : runs gold_help_me_text "(add 420 (add 34 35))" = rules ["Expr"; "Expr"; "Expr"; "Expr"; "Expr"; "Exprs"; "Exprs"; "Exprs"; "SExpr"; "Expr"; "Exprs"; "Exprs"; "Exprs"; "SExpr"]%string.
Proof. vm_compute. reflexivity. Qed.

(** lalr.rs:270 [basic_ops2]. *)
Definition basic_ops2_text : list N := tx "
            export start Exprs: () = [
                Expr Exprs => (""nice""),
                Expr => (""also nice"")
            ]

            export Expr: () = [ 
                <int: Int> => ({ kind: ""int"", int }),
                <str: String> => ({ kind: ""str"", str }),
            ]

            export Int: () = [
                r""[1-9][0-9]*"" => (""lol"")
            ]

            export String: () = [
                r""'[^']*'"" => (""lol"")
            ]
        ".
Example lalr_basic_ops2 : runs basic_ops2_text "42 420 69 9001" = rules ["Int"; "Expr"; "Int"; "Expr"; "Int"; "Expr"; "Int"; "Expr"; "Exprs"; "Exprs"; "Exprs"; "Exprs"]%string.
Proof. vm_compute. reflexivity. Qed.

(** lalr.rs:306 [lisp]. *)
Definition lisp_text : list N := tx "
            export start SExpr: () = [
                ""("" <exprs: Exprs> "")"" => (""LMAO"")
            ]

            export Exprs: () = [
                Expr Exprs => (""nice""),
                Expr => (""also nice"")
            ]

            export Expr: () = [ 
                <int: Int> => ({ kind: ""int"", int }),
                <str: Symbol> => ({ kind: ""str"", str }),
            ]

            export Int: () = [
                r""[1-9][0-9]*"" => (""lol"")
            ]

            export Symbol: () = [
                r""[^() ]*"" => (""lol"")
            ]
        ".
Example lalr_lisp : runs lisp_text "(add 35 34)" = rules ["Symbol"; "Expr"; "Int"; "Expr"; "Int"; "Expr"; "Exprs"; "Exprs"; "Exprs"; "SExpr"]%string.
Proof. vm_compute. reflexivity. Qed.

(** Both generated files, as in parse_gen.rs:633-641: whether they are written, and the rules [parse] reduces by. *)
Definition generates (text : list N) : res bool :=
  let* ast := parse_grammar text in let* g := grammar_from_ast ast in let* l := lalr_new test_regex ehash g in
  let* a := lex_generate (l_lexer l) in let* b := parse_generate ast l in Ok (negb (eqb (a ++ b) [])).

(** parse_gen.rs:622 [basic]. *)
Definition gen_basic_text : list N := tx "
        export start S: ({ kind: ""S"", left: C, right: C }) = [ 
            <c1: C> <c2: C> => ({ kind: ""S"", left: c1, right: c2 })
        ]

        export C: ({ kind: ""C"", values: string[] }) = [
            <c1: ""c""> <c2: C> => ({ kind: ""C"", values: [c1, ...c2['values']] }),
            <d: ""d""> => ({ kind: ""C"", values: [d]})
        ]
    ".
Example gen_basic : generates gen_basic_text = Ok true.
Proof. vm_compute. reflexivity. Qed.

(** parse_gen.rs:646 [math]. *)
Definition gen_math_text : list N := tx "
        export start Expr: ({ kind: ""Expr"", left: Num, op: Op, right: Num }) = [ 
            <l: Num> <op: Op> <right: Num> => ({ kind: ""Expr"", left: l, right: right, op: op })
        ]

        export Op: ({ kind: ""Op"", op: ""add"" | ""sub"" | ""div"" | ""mul"" }) = [ 
            <plus: ""+""> => ({ kind: ""Op"", op: ""add"" }),
            <sub: ""-""> => ({ kind: ""Op"", op: ""sub"" }),
            <div: ""/""> => ({ kind: ""Op"", op: ""div"" }),
            <mul: ""*""> => ({ kind: ""Op"", op: ""mul"" }),
        ]

        export Num: ({ kind: ""Num"", value: string }) = [
            <num: r""[1-9][0-9]*""> => ({ kind: ""Num"", value: num })
        ]
    ".
Example gen_math : generates gen_math_text = Ok true.
Proof. vm_compute. reflexivity. Qed.

(** parse_gen.rs:675 [lisp]. *)
Definition gen_lisp_text : list N := tx "
        export start SExpr: ({ kind: ""SExpr"", exprs: Exprs }) = [
            ""("" <exprs: Exprs> "")"" => ({ kind: ""SExpr"", exprs: exprs })
        ]

        export Exprs: (Expr[]) = [
            <eee: Expr> <es: Exprs> => ([eee, ...es]),
            <eee: Expr> => ([eee])
        ]

        export Expr: ({ kind: ""int"", value: ""420"" } | { kind: ""symbol"", value: ""add"" } | { kind: ""sexpr"", sexpr: SExpr }) = [ 
            <sexpr: SExpr> => ({ kind: ""sexpr"", sexpr: sexpr }),
            <int: Int> => ({ kind: ""int"", value: int }),
            <str: Symbol> => ({ kind: ""symbol"", value: str }),
        ]

        export Int: (""420"") = [
            <int: ""420""> => (int)
        ]

        export Symbol: (""add"") = [
            <sym: ""add""> => (sym)
        ]
    ".
Example gen_lisp : generates gen_lisp_text = Ok true.
Proof. vm_compute. reflexivity. Qed.
Example gen_lisp_runs : (let* r := runs gen_lisp_text "(add (add 420 420))" in Ok (List.length r)) = Ok 16.
Proof. vm_compute. reflexivity. Qed.

(** parse_gen.rs:713 [god_help_me]. *)
Definition gen_god_help_me_text : list N := tx "
        export start SExpr: ({ kind: ""SExpr"", exprs: Exprs }) = [
            ""("" <exprs: Exprs> "")"" => ({ kind: ""SExpr"", exprs: exprs })
        ]

        export Exprs: (Expr[]) = [
            <eee: Expr> <es: Exprs> => ([eee, ...es]),
            <eee: Expr> => ([eee])
        ]

        export Expr: ({ kind: ""symbol"", value: ""add"" } | { kind: ""int"", value: string } | { kind: ""sexpr"", sexpr: SExpr }) = [ 
            <sexpr: SExpr> => ({ kind: ""sexpr"", sexpr: sexpr }),
            <str: ""add""> => ({ kind: ""symbol"", value: str }),
            <int: r""[1-9]+[0-9]*""> => ({ kind: ""int"", value: int })
        ]
    ".
Example gen_god_help_me : generates gen_god_help_me_text = Ok true.
Proof. vm_compute. reflexivity. Qed.
Example gen_god_help_me_runs : (let* r := runs gen_god_help_me_text "(add 420 (add 34 35))" in Ok (List.length r)) = Ok 14.
Proof. vm_compute. reflexivity. Qed.

(** lex_gen.rs:385-429 [gen], [basic_gen], [math]; they only run. *)
Example lexgen_gen :
  exists t, (let* L := from_tokens [new_token "LET" (lits "let"); new_token_val "IDENTIFIER" identifier; new_token "EQ" (HLit 61);
                                    new_token_val "NUM" (HConcat [digit1; star digit]); new_token "SEMI-COLON" (HLit 59)] in
             lex_generate L) = Ok t.
Proof. eexists. vm_compute. reflexivity. Qed.
Example lexgen_basic_gen :
  exists t, (let* L := from_tokens [new_token_val "c" (HLit 99); new_token_val "d" (HLit 100)] in lex_generate L) = Ok t.
Proof. eexists. vm_compute. reflexivity. Qed.
Example lexgen_math :
  let l := [new_token_val "+" (HLit 43); new_token_val "*" (HLit 42); new_token_val "/" (HLit 47); new_token_val "-" (HLit 45);
            new_token_val "[1-9][0-9]*" (HConcat [digit1; star digit])] in
  lexes l "420 + 4" = Ok [tok_val "[1-9][0-9]*" "420"; tok_val "+" "+"; tok_val "[1-9][0-9]*" "4"] /\
  exists t, (let* L := from_tokens l in lex_generate L) = Ok t.
Proof. split; [vm_compute; reflexivity|]. eexists. vm_compute. reflexivity. Qed.
