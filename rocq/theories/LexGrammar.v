(** Model of the lexer of a grammar: /repo/src/lex/lex.rs:55-68, 125-147 and
    /repo/src/parser/mod.rs:199-222. *)
From Verif Require Import Base Regex Nfa Dfa Lex Grammar.

(** [RegexParser::parse(regex::escape(s))] (mod.rs:208): the literal characters in sequence.
    Both calls are external; this is what they document. *)
Definition lit_hir (s : str) : hir :=
  match s with
  | [] => HEmpty
  | [c] => HLit c
  | _ => HConcat (map HLit s)
  end.

Section Parse.
  (** [RegexParser::parse] on regex text (mod.rs:216); None is the error that [unwrap] turns into
      a panic. *)
  Variable parse_regex : str -> option hir.

  (** mod.rs:199-222 [to_token_def_with_regex]. *)
  Definition token_def_with_regex (x : sym) (i : nat) : res (option (token_def * hir)) :=
    match x with
    | SStr s => Ok (Some (TokenDef s true (Some i), lit_hir s))
    | SReg r => match parse_regex r with
                | None => Panic PUnwrapNone
                | Some h => Ok (Some (TokenDef r true (Some i), h))
                end
    | SEps | SEof | SNon _ => Ok None
    end.

  (** lex.rs:56-65: the definitions, in token-table order. *)
  Fixpoint grammar_tokens_from (i : nat) (l : list sym) : res (list (token_def * hir)) :=
    match l with
    | [] => Ok []
    | x :: l' =>
        let* o := token_def_with_regex x i in
        let* r := grammar_tokens_from (S i) l' in
        Ok (match o with Some t => t :: r | None => r end)
    end.
  (** lex.rs:56-66: all of them. *)
  Definition grammar_tokens (g : grammar) : res (list (token_def * hir)) :=
    grammar_tokens_from 0 (g_tokens g).

  (** lex.rs:55-68 [from_grammar]. *)
  Definition from_grammar (g : grammar) : res lexer :=
    let* tokens := grammar_tokens g in from_tokens tokens.
End Parse.

(** lex.rs:126-132: definitions by name; a later definition replaces an earlier one. *)
Definition def_map (L : lexer) : list (list N * token_def) :=
  fold_left (fun m e => map_insert (td_name (snd e)) (snd e) m) (lx_tokens L) [].

(** lex.rs:140-147 [token_with_idx]. *)
Definition token_with_idx (m : list (list N * token_def)) (t : token) : res (token * nat) :=
  match map_get (tk_name t) m with
  | None => Panic PUnwrapNone
  | Some d => match td_idx d with None => Panic PUnwrapNone | Some i => Ok (t, i) end
  end.

(** "EOF". lex.rs:136. *)
Definition eof_name : list N := [69; 79; 70]%N.

(** lex.rs:125-138 [convert_tokens]. *)
Definition convert_tokens (L : lexer) (ts : list token) : res (list (token * nat)) :=
  let* r := mapM (token_with_idx (def_map L)) ts in
  Ok (r ++ [(Token eof_name None, 0)]).
