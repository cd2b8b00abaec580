(** Specification for C78: rules that begin and end with the name they define. *)
From Verif Require Import Base Grammar GrammarSpec.

(** Rule [p] is E -> E m E. *)
Definition both_ends (g : grammar) (p : nat) (m : list sym) : Prop :=
  exists pr, nth_error (g_prods g) p = Some pr /\ p_syms pr = SNon (p_name pr) :: m ++ [SNon (p_name pr)].
(** A token stands after the first E. *)
Definition token_first (m : list sym) : Prop := exists x m', m = x :: m' /\ terminal x.
(** Nothing or a name stands before the last E. *)
Definition name_last (m : list sym) : Prop := m = [] \/ exists m' B, m = m' ++ [SNon B].
