(** What calls the functions of Release.v: reading a grammar file, building a lexer and the library's
    two entry points, in a release build.  Every definition is that of the debug build with the
    functions of Release.v in the place of those they replace. *)
From Verif Require Import Base Regex Nfa Overlap Dfa Lex Grammar Support Item Table LexGrammar Parse Lalr GrammarFile Release.

(** ** Grammar files *)

(** grammar.lalrpop:40-44 [Symbol]. *)
Definition parse_symbol_release (ts : list gtok) : res (isym * list gtok) :=
  match ts with
  | GStr s :: r => Ok (IStr (alloc_quoted_str_release s), r)
  | GR :: GStr s :: r => Ok (IReg (alloc_regex_release s), r)
  | GId s :: r => Ok (INon (alloc_str s), r)
  | _ => Panic PUnwrapNone
  end.
(** grammar.lalrpop:32-38 [NamedSymbol]. *)
Definition parse_named_release (ts : list gtok) : res (isym * list gtok) :=
  match ts with
  | GLess :: GId n :: GColon :: r =>
      let* xr := parse_symbol_release r in
      match snd xr with
      | GMore :: r' => Ok (INamed (Some (alloc_str n)) (fst xr), r')
      | _ => Panic PUnwrapNone
      end
  | _ => parse_symbol_release ts
  end.
(** grammar.lalrpop:26. *)
Fixpoint parse_syms_release (fuel : nat) (ts : list gtok) : res (list isym * list gtok) :=
  match fuel with
  | O => Diverge
  | S f =>
      let* xr := parse_named_release ts in
      match snd xr with
      | GArrow :: r => Ok ([fst xr], r)
      | r => let* xsr := parse_syms_release f r in Ok (fst xr :: fst xsr, snd xsr)
      end
  end.
(** grammar.lalrpop:25-30 [ProductionBody]. *)
Definition parse_body_release (fuel : nat) (ts : list gtok) : res (abody * list gtok) :=
  let* xsr := parse_syms_release fuel ts in
  match snd xsr with
  | GCode c :: r => Ok (ABody (fst xsr) (alloc_ts_code_release c), r)
  | _ => Panic PUnwrapNone
  end.
(** grammar.lalrpop:55-63 [Comma] of bodies, and the closing bracket of line 11. *)
Fixpoint parse_bodies_release (fuel : nat) (ts : list gtok) : res (list abody * list gtok) :=
  match fuel with
  | O => Diverge
  | S f =>
      match ts with
      | GClose :: r => Ok ([], r)
      | _ =>
          let* br := parse_body_release f ts in
          match snd br with
          | GComma :: r => let* bsr := parse_bodies_release f r in Ok (fst br :: fst bsr, snd bsr)
          | GClose :: r => Ok ([fst br], r)
          | _ => Panic PUnwrapNone
          end
      end
  end.
(** grammar.lalrpop:11 and 17, after [export] and [start]. *)
Definition parse_rule_release (fuel : nat) (start : bool) (ts : list gtok) : res (aprod * list gtok) :=
  match ts with
  | GId n :: GColon :: GCode c :: GEq :: GOpen :: r =>
      let* bsr := parse_bodies_release fuel r in
      Ok (AProd (alloc_str n) (fst bsr) start (alloc_ts_code_release c), snd bsr)
  | _ => Panic PUnwrapNone
  end.
(** grammar.lalrpop:10-23 [Production]. *)
Definition parse_production_release (fuel : nat) (ts : list gtok) : res (aprod * list gtok) :=
  match ts with
  | GExport :: GStart :: r => parse_rule_release fuel true r
  | GExport :: r => parse_rule_release fuel false r
  | _ => parse_rule_release fuel false ts
  end.
(** grammar.lalrpop:6-8 [Program]. *)
Fixpoint parse_program_release (fuel : nat) (ts : list gtok) : res (list aprod) :=
  match fuel with
  | O => Diverge
  | S f =>
      let* pr := parse_production_release f ts in
      match snd pr with
      | [] => Ok [fst pr]
      | r => let* ps := parse_program_release f r in Ok (fst pr :: ps)
      end
  end.
(** lib.rs:10-17 [parse_grammar]. *)
Definition parse_grammar_release (text : str) : res (list aprod) :=
  let* ts := file_tokens (length text) text in
  parse_program_release (S (length ts)) ts.

(** ** The lexer *)

(** dfa.rs:185-219: the body of the loop over the alphabet for the set at [t_idx]. *)
Definition build_label_release (n : nfa) (t_idx : nat) (st : bstate) (label : rng) : res bstate :=
  match nth_error (b_states st) t_idx with
  | None => Panic PIndex
  | Some t =>
      let* m := move_set_release n t label in
      let* u := dfa_epsilon_closure n m in
      match u with
      | [] => Ok st
      | _ =>
          let '(idx, marks, ds, dmap) :=
            match find_index (eqb u) (b_states st) with
            | Some i => (i, b_marks st, b_states st, b_map st)
            | None =>
                let new_idx := length (b_states st) in
                (new_idx, b_marks st ++ [false], b_states st ++ [u],
                 map_insert new_idx u (b_map st))
            end in
          match nth_error (b_first st) t_idx with
          | None => Panic PIndex
          | Some fe =>
              let first := match fe with
                           | None => update_nth t_idx (fun _ => Some (length (b_edges st))) (b_first st)
                           | Some _ => b_first st
                           end in
              Ok (BState first marks ds dmap (b_edges st ++ [DEdge t_idx label idx]))
          end
      end
  end.
(** dfa.rs:172-220: one iteration of the outer loop. *)
Definition build_step_release (n : nfa) (alphabet : list rng) (st : bstate) : bstate + res bstate :=
  match find_index negb (b_marks st) with
  | None => inr (Ok st)
  | Some t_idx =>
      let st1 := BState (b_first st ++ [None]) (update_nth t_idx (fun _ => true) (b_marks st))
                        (b_states st) (b_map st) (b_edges st) in
      match foldM (build_label_release n t_idx) alphabet st1 with
      | Ok st2 => inl st2
      | Panic p => inr (Panic p)
      | Diverge => inr Diverge
      end
  end.
(** dfa.rs:163-236 [build]. *)
Definition build_release (n : nfa) (alphabet : list rng) : res dfa :=
  let* c0 := nfa_epsilon_closure n [START_IDX] in
  let st0 := BState [] [false] [set_of_list c0] [] [] in
  match run (build_step_release n alphabet) (S (length (states n))) st0 with
  | inl _ => Diverge
  | inr (Panic p) => Panic p
  | inr Diverge => Diverge
  | inr (Ok st) =>
      let* firsts := mapM (fun i => match nth_error (b_first st) i with
                                    | Some f => Ok f | None => Panic PIndex end)
                          (seq 0 (length (b_states st))) in
      Ok (DFA (b_edges st) firsts (b_map st) (accepting_states n))
  end.
(** dfa.rs:92-100 [from_nfa]. *)
Definition from_nfa_release (n : nfa) : res dfa :=
  let* labels := nfa_labels n in
  let* alphabet := remove_overlap (set_of_list labels) in
  build_release n alphabet.
(** lex.rs:70-114 [from_tokens]. *)
Definition from_tokens_release (tokens : list (token_def * hir)) : res lexer :=
  let* (n, tmap) := lex_nfa tokens in
  let* d := from_nfa_release n in
  Ok (lexer_new tmap d).
(** lex.rs:55-68 [from_grammar]. *)
Definition from_grammar_release (parse_regex : str -> option hir) (g : grammar) : res lexer :=
  let* tokens := grammar_tokens parse_regex g in from_tokens_release tokens.

(** ** The library *)

(** lalr.rs:31-43 [new]. *)
Definition lalr_new_release (parse_regex : str -> option hir) (hash : list item -> N) (g : grammar) : res lalr :=
  let* L := from_grammar_release parse_regex g in
  let* t := make_tables_release hash g in
  Ok (Lalr g L t).
(** lalr.rs:45-50 [parse]. *)
Definition lalr_parse_release (l : lalr) (input : list N) : res (list nat) :=
  let* ts := lex (l_lexer l) input in
  let* conv := convert_tokens (l_lexer l) ts in
  parse_impl_release (l_grammar l) (l_tables l) (map snd conv).
(** lalr.rs:45-50 [parse] in a debug build, with the counter. *)
Definition lalr_parse_debug (l : lalr) (input : list N) : res (list nat) :=
  let* ts := lex (l_lexer l) input in
  let* conv := convert_tokens (l_lexer l) ts in
  parse_impl_debug (l_grammar l) (l_tables l) (map snd conv).
