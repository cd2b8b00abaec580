(** Specification of tokenising and parsing a text with a grammar, in terms of its symbols. *)
From Verif Require Import Base Regex LexSpec Grammar GrammarSpec.

(** The symbols that occur in texts, in the order of the token table, which is the order of
    precedence. *)
Definition lexical (x : sym) : bool := match x with SStr _ | SReg _ => true | _ => false end.
Definition lex_syms (g : grammar) : list sym := filter lexical (g_tokens g).

(** The texts of a symbol. *)
Definition sym_lang (parse : str -> option hir) (x : sym) (w : list N) : Prop :=
  match x with
  | SStr s => w = s
  | SReg r => exists h, parse r = Some h /\ Lang h w
  | _ => False
  end.

(** [w] is the beginning of a text of some symbol; [w] is a text of symbol number [i] and of
    none before it. *)
Definition begins (parse : str -> option hir) (g : grammar) (w : list N) : Prop :=
  exists x v, In x (lex_syms g) /\ sym_lang parse x (w ++ v).
Definition is_sym (parse : str -> option hir) (g : grammar) (w : list N) (i : nat) : Prop :=
  (exists x, nth_error (lex_syms g) i = Some x /\ sym_lang parse x w) /\
  forall j x, j < i -> nth_error (lex_syms g) j = Some x -> ~ sym_lang parse x w.

(** Maximal munch: the symbols of a text, and what is left of it when no symbol matches. *)
Definition reference (parse : str -> option hir) (g : grammar) (input : list N) (l : list sym) (rest : list N) : Prop :=
  exists ts, Munch (begins parse g) (is_sym parse g) 0 input ts rest /\
    Forall2 (fun x s => nth_error (lex_syms g) (snd (fst x)) = Some s) ts l.
