(** Specification for "the terminals of a grammar written differently". *)
From Verif Require Import Base Regex LexSpec Grammar LexGrammar EndSpec.

(** The text a terminal is known by: that of the literal, or that of the regex. *)
Definition spelling (x : sym) : str := match x with SStr s | SReg s => s | _ => [] end.

(** Each terminal written [X x] matches the same (non-empty) texts, and of two that match a common
    text, the same one comes first. *)
Definition same_texts (parse : str -> option hir) (X : sym -> sym) (g : grammar) : Prop :=
  (forall x, In x (lex_syms g) -> forall w, w <> [] -> (sym_lang parse (X x) w <-> sym_lang parse x w)) /\
  (forall x y w, In x (lex_syms g) -> In y (lex_syms g) -> w <> [] -> sym_lang parse x w -> sym_lang parse y w ->
     cmp (X x) (X y) = cmp x y).

(** The conditions under which the lexer is exact (C10): no two character ranges of the grammar's
    terminals are cut badly, and no regex has an empty alternation or class in it. *)
Definition exact_lexer (parse : str -> option hir) (g : grammar) : Prop :=
  exists hs, Forall2 (fun x h => match x with SStr s => h = lit_hir s | SReg r => parse r = Some h | _ => False end) (lex_syms g) hs /\
    split_refines hs /\ Forall productive hs.
