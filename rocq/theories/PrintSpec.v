(** Specification for C69: writing down the leaves of a parse tree. *)
From Verif Require Import Base Regex LexSpec Grammar GrammarSpec EndSpec.

(** A symbol and a text that is read as this symbol: it is no text of a symbol that comes before it. *)
Definition own_text (parse : str -> option hir) (g : grammar) (x : sym) (u : list N) : Prop :=
  u <> [] /\ exists i, nth_error (lex_syms g) i = Some x /\ is_sym parse g u i.

(** No text of a symbol has white space in it. *)
Definition no_white_texts (parse : str -> option hir) (g : grammar) : Prop :=
  forall x u c, In x (lex_syms g) -> sym_lang parse x u -> In c u -> ~ white c.

(** The symbols' texts one after the other, with white space before and after them and at least
    one white character between two of them. *)
Inductive Printed : list (sym * list N) -> list N -> Prop :=
| PrEnd w : Forall white w -> Printed [] w
| PrLast w x u : Forall white w -> Printed [(x, u)] (w ++ u)
| PrCons w x u c l s : Forall white w -> white c -> Printed l s -> Printed ((x, u) :: l) (w ++ u ++ c :: s).
