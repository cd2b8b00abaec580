(** Specification for C74: alternatives that begin in the same way. *)
From Verif Require Import Base Grammar GrammarSpec ItemSpec.

(** Two rules of one name have the same [d] first symbols and then the same terminal [x]. *)
Definition same_beginning (g : grammar) (p q d : nat) (x : sym) : Prop :=
  p <> q /\ terminal x /\ exists pp pq, nth_error (g_prods g) p = Some pp /\ nth_error (g_prods g) q = Some pq /\
    p_name pp = p_name pq /\ firstn d (p_syms pp) = firstn d (p_syms pq) /\ nth_error (p_syms pp) d = Some x /\ nth_error (p_syms pq) d = Some x.
(** Every terminal is written at one place of the grammar only. *)
Definition one_place (g : grammar) : Prop :=
  forall p d p' d' x, terminal x -> sym_at g p d x -> sym_at g p' d' x -> (p, d) = (p', d').
