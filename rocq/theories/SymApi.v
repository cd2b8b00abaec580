(** Model of the public functions on symbols that nothing in the program calls:
    /repo/src/parser/ast.rs:60-106 and /repo/src/parser/mod.rs:180-197. *)
From Verif Require Import Base Regex Nfa Dfa Lex Grammar LexGrammar.

(** mod.rs:180-197 [Symbol::to_token_def]. *)
Definition to_token_def (x : sym) (i : nat) : option token_def :=
  match x with
  | SStr s => Some (TokenDef s true (Some i))
  | SReg r => Some (TokenDef r true (Some i))
  | SEps | SEof | SNon _ => None
  end.

Section Parse.
  (** [RegexParser::parse], as in [LexGrammar]. *)
  Variable parse_regex : str -> option hir.

  (** ast.rs:60-86 [InputSymbol::to_token_def_with_regex]; the text of a literal is not escaped. *)
  Fixpoint input_token_def_with_regex (x : isym) (i : nat) : res (option (token_def * hir)) :=
    match x with
    | IStr s => match parse_regex s with
                | None => Panic PUnwrapNone
                | Some h => Ok (Some (TokenDef s false (Some i), h))
                end
    | IReg r => match parse_regex r with
                | None => Panic PUnwrapNone
                | Some h => Ok (Some (TokenDef r true (Some i), h))
                end
    | INamed _ ty => input_token_def_with_regex ty i
    | IEps | IEof | INon _ => Ok None
    end.
End Parse.

(** ast.rs:88-94 [InputSymbol::as_non_terminal]. *)
Fixpoint input_as_non_terminal (x : isym) : option str :=
  match x with INamed _ ty => input_as_non_terminal ty | INon n => Some n | _ => None end.

(** ast.rs:96-106 [InputSymbol::is_terminal]. *)
Fixpoint input_is_terminal (x : isym) : bool :=
  match x with IEof | IEps | IReg _ | IStr _ => true | INamed _ ty => input_is_terminal ty | INon _ => false end.
