(** Specification of LR(1) items, closure, goto and the canonical collection, as relations on
    triples (production, dot, lookahead index).  Only the fields of a grammar are read. *)
From Verif Require Import Base Grammar GrammarSpec First Item.

Definition lrset := nat -> nat -> nat -> Prop.

(** The triples of an item set of the model. *)
Definition has (s : item_set) : lrset := fun p d k => exists las, In ((p, d), las) s /\ In k las.

(** An item set as the code's maps hold it: sorted keys, sorted non-empty lookahead sets. *)
Definition wf_set (s : item_set) : Prop :=
  msorted s /\ forall it las, In (it, las) s -> ssorted las /\ las <> [].

(** The symbol after the dot and the symbols from a position on. *)
Definition sym_at (g : grammar) (p d : nat) (x : sym) : Prop :=
  exists pr, nth_error (g_prods g) p = Some pr /\ nth_error (p_syms pr) d = Some x.
Definition rest (g : grammar) (p d : nat) : list sym :=
  match nth_error (g_prods g) p with Some pr => skipn d (p_syms pr) | None => [] end.
Definition complete (g : grammar) (p d : nat) : Prop :=
  exists pr, nth_error (g_prods g) p = Some pr /\ d = length (p_syms pr).

(** The first index of a token. *)
Definition tok (g : grammar) (k : nat) (x : sym) : Prop :=
  nth_error (g_tokens g) k = Some x /\ forall j, j < k -> nth_error (g_tokens g) j <> Some x.

(** LR(1) closure for a notion [F] of FIRST: the least set containing [K] and, with
    [A -> u.Bv, a], every [B -> .w, b] for b in FIRST(va). *)
Inductive clo (g : grammar) (F : list sym -> sym -> Prop) (K : lrset) : lrset :=
| clo_base p d k : K p d k -> clo g F K p d k
| clo_rule p d k a q pq b k' :
    clo g F K p d k -> sym_at g p d (SNon (p_name pq)) -> nth_error (g_prods g) q = Some pq ->
    nth_error (g_tokens g) k = Some a -> F (rest g p (S d) ++ [a]) b -> tok g k' b ->
    clo g F K q 0 k'.

(** FIRST as the code computes it, and the standard one (C20 relates them). *)
Definition F_code (g : grammar) (l : list sym) (y : sym) : Prop := exists s, first g l = Ok s /\ In y s.
Definition F_std (g : grammar) (l : list sym) (y : sym) : Prop :=
  terminal y /\ exists w, derives g l (y :: w).

(** Moving the dot over [x]. *)
Definition move (g : grammar) (I : lrset) (x : sym) : lrset :=
  fun p d k => exists d', d = S d' /\ I p d' k /\ sym_at g p d' x.

Definition init_set : lrset := fun p d k => p = 0 /\ d = 0 /\ k = 0.

(** The canonical LR(1) collection: the states reachable from the closure of the start item. *)
Inductive lr_state (g : grammar) (F : list sym -> sym -> Prop) : lrset -> Prop :=
| lr_init : lr_state g F (clo g F init_set)
| lr_goto I x : lr_state g F I -> (exists p d k, move g I x p d k) -> lr_state g F (clo g F (move g I x)).

(** An item set of the model represents a set of triples. *)
Definition represents (s : item_set) (I : lrset) : Prop := forall p d k, has s p d k <-> I p d k.

(** What one triple needs for the closure to be computable: its production exists and, if the
    dot is before a non-terminal, that has productions, the lookahead is a token, FIRST returns
    and yields tokens of the grammar. *)
Definition ready1 (g : grammar) (p d k : nat) : Prop :=
  (exists pr, nth_error (g_prods g) p = Some pr) /\
  forall B, sym_at g p d (SNon B) -> has_rule g B /\
    exists a, nth_error (g_tokens g) k = Some a /\
      exists s, first g (rest g p (S d) ++ [a]) = Ok s /\ forall y, In y s -> In y (g_tokens g).
Definition ready (g : grammar) (I : lrset) : Prop := forall p d k, I p d k -> ready1 g p d k.
