(** Specification for C75: regular grammars. *)
From Verif Require Import Base Grammar GrammarSpec.

(** Names occur only at the end of a body (right-linear), or only at its beginning (left-linear). *)
Definition right_linear (g : grammar) : Prop :=
  forall p, In p (g_prods g) -> forall u A v, p_syms p = u ++ SNon A :: v -> v = [].
Definition left_linear (g : grammar) : Prop :=
  forall p, In p (g_prods g) -> forall u A v, p_syms p = u ++ SNon A :: v -> u = [].
Definition regular (g : grammar) : Prop := right_linear g \/ left_linear g.
