(** Specifications for the grammar part: context-free derivations, rightmost derivations and
    parse trees over a list of productions.  None of this uses the functions of the model; it
    only reads the list [g_prods] of a grammar. *)
From Verif Require Import Base Grammar.

(** Grammar rules. *)
Definition rule (g : grammar) (A : str) (b : list sym) : Prop :=
  exists p, In p (g_prods g) /\ p_name p = A /\ p_syms p = b.

Definition terminal (x : sym) : Prop := forall n, x <> SNon n.
Definition terminals (l : list sym) : Prop := Forall terminal l.

(** One rewriting step of a sentential form. *)
Inductive derives1 (g : grammar) : list sym -> list sym -> Prop :=
| derives1_intro a A b c : rule g A b -> derives1 g (a ++ SNon A :: c) (a ++ b ++ c).

(** Any number of steps. *)
Inductive derives (g : grammar) : list sym -> list sym -> Prop :=
| derives_refl u : derives g u u
| derives_step u v w : derives1 g u v -> derives g v w -> derives g u w.

(** [rm_reduce g ps u v]: applying the productions [ps] in order as reductions leads from [u] to
    [v], each undoing a rightmost derivation step (only terminals to the right of the rewritten
    symbol).  Read backwards it is a rightmost derivation of [u] from [v]. *)
Inductive rm_reduce (g : grammar) : list nat -> list sym -> list sym -> Prop :=
| rm_nil u : rm_reduce g [] u u
| rm_snoc ps u p pr a w :
    rm_reduce g ps u (a ++ p_syms pr ++ w) ->
    nth_error (g_prods g) p = Some pr -> terminals w ->
    rm_reduce g (ps ++ [p]) u (a ++ SNon (p_name pr) :: w).

(** Bodies as a grammar file can express them: not empty, without the special symbols. *)
Definition eps_free (g : grammar) : Prop :=
  forall p, In p (g_prods g) -> p_syms p <> [] /\ ~ In SEps (p_syms p).
Definition eof_free (g : grammar) : Prop :=
  forall p, In p (g_prods g) -> ~ In SEof (p_syms p).
Definition plain (g : grammar) : Prop := eps_free g /\ eof_free g.

(** Left recursion: one or more steps lead from [A] back to [A] in first position. *)
Definition left_recursive (g : grammar) (A : str) : Prop :=
  exists b c, derives1 g [SNon A] b /\ derives g b (SNon A :: c).

(** Every non-terminal used has a production. *)
Definition has_rule (g : grammar) (n : str) : Prop := exists q, In q (g_prods g) /\ p_name q = n.
Definition defined (g : grammar) : Prop :=
  forall p n, In p (g_prods g) -> In (SNon n) (p_syms p) -> has_rule g n.

(** Parse trees.  Leaves carry terminals. *)
Inductive tree := Leaf (x : sym) | Node (p : nat) (ts : list tree).

Section TreeInd.
  Variable P : tree -> Prop.
  Hypothesis Hleaf : forall x, P (Leaf x).
  Hypothesis Hnode : forall p ts, Forall P ts -> P (Node p ts).
  Fixpoint tree_ind' (t : tree) : P t :=
    match t with
    | Leaf x => Hleaf x
    | Node p ts => Hnode p ts ((fix go l : Forall P l :=
        match l with [] => Forall_nil _ | t :: l => Forall_cons _ (tree_ind' t) (go l) end) ts)
    end.
End TreeInd.

Definition root (g : grammar) (t : tree) : option sym :=
  match t with
  | Leaf x => Some x
  | Node p _ => match nth_error (g_prods g) p with Some pr => Some (SNon (p_name pr)) | None => None end
  end.

(** Every leaf is a terminal, every node applies its production. *)
Inductive tree_ok (g : grammar) : tree -> Prop :=
| ok_leaf x : terminal x -> tree_ok g (Leaf x)
| ok_node p pr ts : nth_error (g_prods g) p = Some pr ->
    Forall (tree_ok g) ts -> map (root g) ts = map Some (p_syms pr) -> tree_ok g (Node p ts).

Fixpoint yield (t : tree) : list sym :=
  match t with Leaf x => [x] | Node _ ts => flat_map yield ts end.
Fixpoint postorder (t : tree) : list nat :=
  match t with Leaf _ => [] | Node p ts => flat_map postorder ts ++ [p] end.

(** Productions that can occur in a derivation from the start symbol. *)
Inductive reachable (g : grammar) : nat -> Prop :=
| reach_start : reachable g 0
| reach_next p pr q pq : reachable g p -> nth_error (g_prods g) p = Some pr ->
    In (SNon (p_name pq)) (p_syms pr) -> nth_error (g_prods g) q = Some pq -> reachable g q.
