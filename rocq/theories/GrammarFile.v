(** Model of /repo/src/parser/grammar.lalrpop and of [parse_grammar] (/repo/src/lib.rs:10-17): how
    the text of a grammar file becomes an AST.  The parser is generated by lalrpop 0.19 from
    grammar.lalrpop; what is modelled is the lexer lalrpop derives from the terminals (longest
    match, literals before regexes, white space skipped: lalrpop-util's [Matcher]) and, as a
    recursive-descent parser, the grammar of that file with its actions.  That lalrpop's LR(1)
    tables implement this grammar is trusted.  Any error makes [parse_grammar] panic, because its
    result is unwrapped (lib.rs:14). *)
From Coq Require Import Ascii String.
From Verif Require Import Base Regex Nfa Dfa Lex Grammar Support Text.
Local Open Scope list_scope.

(** The terminals of grammar.lalrpop: the literals, and the three regexes with the text matched. *)
Inductive gtok :=
| GExport | GStart | GR | GColon | GEq | GArrow | GOpen | GClose | GLess | GMore | GComma
| GStr (s : str) | GId (s : str) | GCode (s : str).

(** [\s]: Unicode's White_Space. Used by the lexer built from grammar.lalrpop. *)
Definition spaces : list (N * N) :=
  [(9, 13); (32, 32); (133, 133); (160, 160); (5760, 5760); (8192, 8202); (8232, 8233); (8239, 8239); (8287, 8287); (12288, 12288)]%N.
(** The same as a test; grammar.lalrpop has no pattern of its own for it. *)
Definition space_b (c : N) : bool := existsb (fun r => (fst r <=? c)%N && (c <=? snd r)%N) spaces.
(** grammar.lalrpop:47 [[_A-Za-z]] and [[_A-Za-z0-9]]. *)
Definition word_start (c : N) : bool := ((c =? 95) || (65 <=? c) && (c <=? 90) || (97 <=? c) && (c <=? 122))%N.
(** grammar.lalrpop:47 [[_A-Za-z0-9]]. *)
Definition word_rest (c : N) : bool := word_start c || ((48 <=? c) && (c <=? 57))%N.

(** How much of the text each terminal matches.  The regexes are matched greedily; for each of
    them there is at most one way to match a given length, and the match found is the longest. For grammar.lalrpop:46-56. *)
Fixpoint span (p : N -> bool) (s : str) : nat :=
  match s with c :: s' => if p c then S (span p s') else 0 | [] => 0 end.
(** [\s*], which lalrpop adds. Between any two terminals of grammar.lalrpop. *)
Definition m_space (s : str) : option nat := Some (span space_b s).
(** A literal. Those of grammar.lalrpop:11-56. *)
Fixpoint m_lit (l s : str) : option nat :=
  match l, s with
  | [], _ => Some 0
  | c :: l', d :: s' => if (c =? d)%N then option_map S (m_lit l' s') else None
  | _, [] => None
  end.
(** grammar.lalrpop:47. *)
Definition m_ident (s : str) : option nat :=
  match s with c :: s' => if word_start c then Some (S (span word_rest s')) else None | [] => None end.
(** grammar.lalrpop:41-42 after the opening quote: two backslashes, a backslash and a quote, or any
    character but these two; then a quote. *)
Fixpoint str_end (s : str) : option nat :=
  match s with
  | [] => None
  | c :: s' =>
      if (c =? 34)%N then Some 1
      else if (c =? 92)%N then
        match s' with
        | d :: s'' => if ((d =? 92) || (d =? 34))%N then option_map (fun n => S (S n)) (str_end s'') else None
        | [] => None
        end
      else option_map S (str_end s')
  end.
(** grammar.lalrpop:41-42, from the opening quote. *)
Definition m_str (s : str) : option nat :=
  match s with c :: s' => if (c =? 34)%N then option_map S (str_end s') else None | [] => None end.
(** grammar.lalrpop:51 after the opening parenthesis: [.] is any character but a line feed, and [.*]
    is greedy. *)
Fixpoint code_end (s : str) : option nat :=
  match s with
  | [] => None
  | c :: s' =>
      if (c =? 10)%N then None
      else match code_end s' with Some n => Some (S n) | None => if (c =? 41)%N then Some 1 else None end
  end.
(** grammar.lalrpop:51, from the opening parenthesis. *)
Definition m_code (s : str) : option nat :=
  match s with c :: s' => if (c =? 40)%N then option_map S (code_end s') else None | [] => None end.

(** The literals of grammar.lalrpop:11-56. *)
Definition literals : list (str * gtok) :=
  [(tx "export", GExport); (tx "start", GStart); (tx "r", GR); (tx ":", GColon); (tx "=", GEq); (tx "=>", GArrow);
   (tx "[", GOpen); (tx "]", GClose); (tx "<", GLess); (tx ">", GMore); (tx ",", GComma)].
(** The table of lalrpop's lexer: white space, to be skipped, then the regexes, then the literals,
    which take precedence over the regexes by coming later. In the order in which build.rs has it made from grammar.lalrpop:11-56. *)
Definition patterns : list (option (str -> gtok) * (str -> option nat)) :=
  [(None, m_space); (Some GStr, m_str); (Some GId, m_ident); (Some GCode, m_code)] ++
  map (fun l => (Some (fun _ => snd l), m_lit (fst l))) literals.

(** lalrpop-util, [Matcher::next]: the last of the longest matches. Called by the parser generated from grammar.lalrpop. *)
Definition better (s : str) (acc : option (nat * option (str -> gtok))) (p : option (str -> gtok) * (str -> option nat)) :=
  match snd p s with
  | None => acc
  | Some n => match acc with Some (m, _) => if m <=? n then Some (n, fst p) else acc | None => Some (n, fst p) end
  end.
(** The match taken, for grammar.lalrpop. *)
Definition best (s : str) : option (nat * option (str -> gtok)) := fold_left (better s) patterns None.

(** lalrpop-util, [Matcher]: all the tokens.  The generated parser asks for them one by one; an
    error is an error whoever meets it first.  [fuel] is the length of the text. For grammar.lalrpop. *)
Fixpoint file_tokens (fuel : nat) (s : str) : res (list gtok) :=
  match s with
  | [] => Ok []
  | _ =>
      match fuel with
      | O => Diverge
      | S f =>
          match best s with
          | None => Panic PUnwrapNone
          | Some (n, None) => if n =? 0 then Panic PUnwrapNone else file_tokens f (skipn n s)
          | Some (n, Some mk) => let* ts := file_tokens f (skipn n s) in Ok (mk (firstn n s) :: ts)
          end
      end
  end.

(** grammar.lalrpop:40-44 [Symbol]. *)
Definition parse_symbol (ts : list gtok) : res (isym * list gtok) :=
  match ts with
  | GStr s :: r => let* v := alloc_quoted_str s in Ok (IStr v, r)
  | GR :: GStr s :: r => let* v := alloc_regex s in Ok (IReg v, r)
  | GId s :: r => Ok (INon (alloc_str s), r)
  | _ => Panic PUnwrapNone
  end.
(** grammar.lalrpop:32-38 [NamedSymbol]. *)
Definition parse_named (ts : list gtok) : res (isym * list gtok) :=
  match ts with
  | GLess :: GId n :: GColon :: r =>
      let* xr := parse_symbol r in
      match snd xr with
      | GMore :: r' => Ok (INamed (Some (alloc_str n)) (fst xr), r')
      | _ => Panic PUnwrapNone
      end
  | _ => parse_symbol ts
  end.
(** grammar.lalrpop:26: one or more symbols, then the arrow. *)
Fixpoint parse_syms (fuel : nat) (ts : list gtok) : res (list isym * list gtok) :=
  match fuel with
  | O => Diverge
  | S f =>
      let* xr := parse_named ts in
      match snd xr with
      | GArrow :: r => Ok ([fst xr], r)
      | r => let* xsr := parse_syms f r in Ok (fst xr :: fst xsr, snd xsr)
      end
  end.
(** grammar.lalrpop:25-30 [ProductionBody]. *)
Definition parse_body (fuel : nat) (ts : list gtok) : res (abody * list gtok) :=
  let* xsr := parse_syms fuel ts in
  match snd xsr with
  | GCode c :: r => let* v := alloc_ts_code c in Ok (ABody (fst xsr) v, r)
  | _ => Panic PUnwrapNone
  end.
(** grammar.lalrpop:55-63 [Comma] of bodies, and the closing bracket of line 11. *)
Fixpoint parse_bodies (fuel : nat) (ts : list gtok) : res (list abody * list gtok) :=
  match fuel with
  | O => Diverge
  | S f =>
      match ts with
      | GClose :: r => Ok ([], r)
      | _ =>
          let* br := parse_body f ts in
          match snd br with
          | GComma :: r => let* bsr := parse_bodies f r in Ok (fst br :: fst bsr, snd bsr)
          | GClose :: r => Ok ([fst br], r)
          | _ => Panic PUnwrapNone
          end
      end
  end.
(** grammar.lalrpop:11 and 17, after [export] and [start]. *)
Definition parse_rule (fuel : nat) (start : bool) (ts : list gtok) : res (aprod * list gtok) :=
  match ts with
  | GId n :: GColon :: GCode c :: GEq :: GOpen :: r =>
      let* v := alloc_ts_code c in
      let* bsr := parse_bodies fuel r in
      Ok (AProd (alloc_str n) (fst bsr) start v, snd bsr)
  | _ => Panic PUnwrapNone
  end.
(** grammar.lalrpop:10-23 [Production]. *)
Definition parse_production (fuel : nat) (ts : list gtok) : res (aprod * list gtok) :=
  match ts with
  | GExport :: GStart :: r => parse_rule fuel true r
  | GExport :: r => parse_rule fuel false r
  | _ => parse_rule fuel false ts
  end.
(** grammar.lalrpop:6-8 [Program]. *)
Fixpoint parse_program (fuel : nat) (ts : list gtok) : res (list aprod) :=
  match fuel with
  | O => Diverge
  | S f =>
      let* pr := parse_production f ts in
      match snd pr with
      | [] => Ok [fst pr]
      | r => let* ps := parse_program f r in Ok (fst pr :: ps)
      end
  end.

(** lib.rs:10-17 [parse_grammar]. *)
Definition parse_grammar (text : str) : res (list aprod) :=
  let* ts := file_tokens (length text) text in
  parse_program (S (length ts)) ts.
