(** Specification for C95: reading what the parser prints. *)
From Coq Require Import String.
From Verif Require Import Base Text Grammar GrammarSpec Item Table Parse ParseSpec Trace.
Local Open Scope list_scope.

(** The lines of a text; what follows the last line end is not one. *)
Fixpoint lines_from (line : str) (s : str) : list str :=
  match s with
  | [] => []
  | c :: s => if N.eqb c 10 then rev line :: lines_from [] s else lines_from (c :: line) s
  end.
Definition lines_of (s : str) : list str := lines_from [] s.
(** What follows a beginning. *)
Fixpoint after (pre s : str) : option str :=
  match pre, s with
  | [], _ => Some s
  | c :: pre, d :: s => if N.eqb c d then after pre s else None
  | _, [] => None
  end.
Fixpoint afters (pre : str) (l : list str) : list str :=
  match l with
  | [] => []
  | x :: l => match after pre x with Some r => r :: afters pre l | None => afters pre l end
  end.
(** The rules that the printed text names, in order. *)
Definition rules_named (s : str) : list str := afters (tx "  reducing by ") (lines_of s).

(** The rule with a number. *)
Definition rule_of (g : grammar) (p : nat) : option (str * list sym) := option_map (fun pr => (p_name pr, p_syms pr)) (nth_error (g_prods g) p).

(** A rule as one would write it: the name, the arrow and two spaces, the symbols with spaces between them. *)
Definition written_rule (g : grammar) (p : nat) : str :=
  match rule_of g p with Some (n, l) => n ++ [32; 8658; 32; 32]%N ++ join [32%N] (map show_sym l) | None => [] end.

(** Nothing printed of the grammar contains a line end. *)
Definition one_line (g : grammar) : Prop :=
  forall p, In p (g_prods g) -> ~ In 10%N (p_name p) /\ forall x, In x (p_syms p) -> ~ In 10%N (show_sym x).
(** No symbol contains a space, none is empty, and no two symbols look the same. *)
Definition clear (g : grammar) : Prop :=
  (forall p, In p (g_prods g) -> ~ In 32%N (p_name p) /\ forall x, In x (p_syms p) -> show_sym x <> [] /\ ~ In 32%N (show_sym x)) /\
  (forall p q x y, In p (g_prods g) -> In q (g_prods g) -> In x (p_syms p) -> In y (p_syms q) -> show_sym x = show_sym y -> x = y).
(** No alternative is written twice. *)
Definition no_rule_twice (g : grammar) : Prop := forall p q, rule_of g p <> None -> rule_of g p = rule_of g q -> p = q.

(** The same tree, up to which of several rules with the same name and symbols is meant. *)
Inductive alike (g : grammar) : tree -> tree -> Prop :=
| al_leaf x : alike g (Leaf x) (Leaf x)
| al_node p q ts ts' : rule_of g p <> None -> rule_of g p = rule_of g q -> Forall2 (alike g) ts ts' -> alike g (Node p ts) (Node q ts').
