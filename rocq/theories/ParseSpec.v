(** Specification of what the parser should do: sentences, parse trees of token sequences, and
    the condition on the tables under which the positive theorems hold. *)
From Verif Require Import Base Grammar GrammarSpec First Item ItemSpec Table.

(** The symbols named by a sequence of token indices. *)
Definition symbols (g : grammar) (w : list nat) (l : list sym) : Prop :=
  map (nth_error (g_tokens g)) w = map Some l.

(** [tr] is a parse tree of the token sequence [w] for the grammar with start symbol [start]. *)
Definition parse_tree (g : grammar) (start : str) (w : list nat) (tr : tree) : Prop :=
  tree_ok g tr /\ root g tr = Some (SNon start) /\ symbols g w (yield tr).

(** A sentence, by derivations. *)
Definition sentence (g : grammar) (start : str) (w : list nat) : Prop :=
  exists l, symbols g w l /\ terminals l /\ derives g [SNon start] l.

(** A token sequence as the lexer hands it over: EOF (index 0) at the end and nowhere else. *)
Definition ended (tokens w : list nat) : Prop := tokens = w ++ [0] /\ ~ In 0 w.

(** The name of the augmented start symbol is used in no body.  Names in grammar files are
    identifiers and the augmented name ends in a quote, so this holds for all grammar files. *)
Definition start_fresh (g : grammar) : Prop :=
  forall p, In p (g_prods g) -> ~ In (SNon (g_start g)) (p_syms p).

(** The items of state [i] of the tables. *)
Definition st (t : tables) (i p d k : nat) : Prop := exists s, nth_error (t_states t) i = Some s /\ has s p d k.

(** Every transition of the automaton is in the tables (what C28 asks for). *)
Definition closed (g : grammar) (t : tables) : Prop :=
  forall i p d k x, st t i p d k -> sym_at g p d x ->
    (terminal x -> forall kx, tok g kx x -> exists j, tbl_get (t_action t) i kx = Some (Shift j)) /\
    (forall A, x = SNon A -> exists j, tbl_get (t_goto t) i A = Some j).

(** The tables take a tree from state [i] to state [j]: its leaves are shifted, its inner nodes
    have a GOTO entry in the state where they begin. *)
Inductive moves (g : grammar) (t : tables) : nat -> tree -> nat -> Prop :=
| mv_leaf i x k j : tok g k x -> tbl_get (t_action t) i k = Some (Shift j) -> moves g t i (Leaf x) j
| mv_node i p pr ts l j : nth_error (g_prods g) p = Some pr -> moves_all g t i ts l ->
    tbl_get (t_goto t) i (p_name pr) = Some j -> moves g t i (Node p ts) j
with moves_all (g : grammar) (t : tables) : nat -> list tree -> nat -> Prop :=
| mv_nil i : moves_all g t i [] i
| mv_cons i tr j ts k : moves g t i tr j -> moves_all g t j ts k -> moves_all g t i (tr :: ts) k.
