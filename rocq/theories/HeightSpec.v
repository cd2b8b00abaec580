(** Specification for C97: how high the stack gets, told by the parse tree alone. *)
From Verif Require Import Base Grammar GrammarSpec Table Parse ParseSpec.

(** The heights of a stack while a tree is built on top of [h] entries, after each leaf and each node:
    every subtree leaves one entry, a node replaces those of its subtrees. *)
Fixpoint walk (tr : tree) (h : nat) {struct tr} : list nat :=
  match tr with
  | Leaf _ => [S h]
  | Node _ ts => (fix go (l : list tree) (h : nat) : list nat := match l with [] => [] | tr' :: l => walk tr' h ++ go l (S h) end) ts h ++ [S h]
  end.
Fixpoint walks (l : list tree) (h : nat) : list nat := match l with [] => [] | tr :: l => walk tr h ++ walks l (S h) end.

(** The number of entries a tree needs: a subtree needs those of the subtrees before it as well. *)
Fixpoint need (tr : tree) : nat :=
  match tr with
  | Leaf _ => 1
  | Node _ ts => Nat.max 1 ((fix go (l : list tree) (i : nat) : nat := match l with [] => 0 | tr' :: l => Nat.max (i + need tr') (go l (S i)) end) ts 0)
  end.
(** How often a way down the tree leaves a node by another subtree than the first. *)
Fixpoint turns (tr : tree) : nat :=
  match tr with
  | Leaf _ => 0
  | Node _ [] => 0
  | Node _ (tr' :: ts) => Nat.max (turns tr') (fold_right Nat.max 0 (map (fun u => S (turns u)) ts))
  end.
(** The largest number of a list. *)
Definition highest (l : list nat) : nat := fold_right Nat.max 0 l.

(** The heights of the stack of a run (lalr.rs:90-155), after each of [n] iterations. *)
Fixpoint heights (g : grammar) (t : tables) (tokens : list nat) (n : nat) (s : pstate) : list nat :=
  match n with
  | O => []
  | S n => match parse_step g t tokens s with inl s' => length (ps_stack s') :: heights g t tokens n s' | inr _ => [] end
  end.

(** Rules that come back to themselves at the start of a body only. *)
Definition first_recursive (rank : str -> nat) (g : grammar) : Prop :=
  forall p pr i A, nth_error (g_prods g) p = Some pr -> nth_error (p_syms pr) i = Some (SNon A) ->
  match i with O => rank A <= rank (p_name pr) | S _ => rank A < rank (p_name pr) end.

(** Ways from one name to another through the bodies of rules, with the names of the rules that were
    left by another symbol than the first. *)
Inductive way (g : grammar) : str -> str -> list str -> Prop :=
| way_end A : way g A A []
| way_first pr B C l : In pr (g_prods g) -> nth_error (p_syms pr) 0 = Some (SNon B) -> way g B C l -> way g (p_name pr) C l
| way_later pr i B C l : In pr (g_prods g) -> nth_error (p_syms pr) (S i) = Some (SNon B) -> way g B C l -> way g (p_name pr) C (p_name pr :: l).
(** A name used from the start comes back to itself, and not only at the start of bodies. *)
Definition comes_back_later (g : grammar) (start : str) : Prop := exists A k B l, way g start A k /\ way g A A (B :: l).
