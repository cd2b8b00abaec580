(** Model of the top-level API: /repo/src/lalr.rs:22-49, and of which ASTs a grammar file can
    produce: /repo/src/parser/grammar.lalrpop. *)
From Verif Require Import Base Regex Nfa Dfa Lex Grammar First Item Table LexGrammar Parse.

(** lalr.rs:22-28 [Lalr]; the action and goto tables and the states are one record here. *)
Record lalr := Lalr { l_grammar : grammar; l_lexer : lexer; l_tables : tables }.

(** lalr.rs:31-43 [new].  [parse_regex] and [hash] stand for the external regex parser and
    [DefaultHasher]. *)
Definition lalr_new (parse_regex : str -> option hir) (hash : list item -> N) (g : grammar) : res lalr :=
  let* L := from_grammar parse_regex g in
  let* t := make_tables hash g in
  Ok (Lalr g L t).

(** lalr.rs:45-50 [parse], with the reductions printed as its result. *)
Definition lalr_parse (l : lalr) (input : list N) : res (list nat) :=
  let* ts := lex (l_lexer l) input in
  let* conv := convert_tokens (l_lexer l) ts in
  parse_impl (l_grammar l) (l_tables l) (map snd conv).

(** ** What the grammar of grammar files (grammar.lalrpop) lets through: the shapes its actions
    build.  GrammarFile.v models the grammar; C52_file_ast proves that these are its shapes. *)

(** grammar.lalrpop:46-48 [Ident]. *)
Definition ident_start (c : N) : Prop := (c = 95 \/ 65 <= c <= 90 \/ 97 <= c <= 122)%N.
(** grammar.lalrpop:47, the second character class. *)
Definition ident_rest (c : N) : Prop := (ident_start c \/ 48 <= c <= 57)%N.
(** grammar.lalrpop:46-48, the whole name. *)
Definition ident (s : str) : Prop :=
  match s with [] => False | c :: s' => ident_start c /\ Forall ident_rest s' end.

(** grammar.lalrpop:40-44 [Symbol]. *)
Definition file_symbol (x : isym) : Prop :=
  match x with IStr _ | IReg _ => True | INon n => ident n | _ => False end.
(** grammar.lalrpop:32-38 [NamedSymbol]. *)
Definition file_named (x : isym) : Prop :=
  match x with INamed (Some n) ty => ident n /\ file_symbol ty | _ => file_symbol x end.
(** grammar.lalrpop:6-30 [Program], [Production], [ProductionBody]: at least one production, at
    least one symbol in every body. *)
Definition file_ast (ast : list aprod) : Prop :=
  ast <> [] /\
  forall p, In p ast -> ident (ap_name p) /\
    forall b, In b (ap_bodies p) -> ab_syms b <> [] /\ Forall file_named (ab_syms b).
