(** Specification for C73: grammars one can parse by looking at the next token (LL(1)), for rules
    without empty bodies.  Only derivations are used. *)
From Verif Require Import Base Grammar GrammarSpec.

(** [y] is the first terminal of something derived from [l]. *)
Definition begins (g : grammar) (l : list sym) (y : sym) : Prop := terminal y /\ exists w, derives g l (y :: w).
(** Symbols that occur in rules the start symbol needs. *)
Definition used (g : grammar) (x : sym) : Prop :=
  exists p pr, reachable g p /\ nth_error (g_prods g) p = Some pr /\ In x (p_syms pr).
(** Two different rules of one name never begin with the same terminal. *)
Definition ll1 (g : grammar) : Prop :=
  forall p q pp pq y, reachable g p -> reachable g q -> nth_error (g_prods g) p = Some pp -> nth_error (g_prods g) q = Some pq ->
  p_name pp = p_name pq -> begins g (p_syms pp) y -> begins g (p_syms pq) y -> p = q.
(** Every symbol that is used derives some terminals. *)
Definition useful (g : grammar) : Prop := forall x, used g x -> exists l, terminals l /\ derives g [x] l.
