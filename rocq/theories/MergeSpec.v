(** Specification for C28: unions of LR(1) states and where they go. *)
From Verif Require Import Base Grammar GrammarSpec First Item ItemSpec TableSpec.

Definition union_of (P : lrset -> Prop) : lrset := fun p d k => exists I, P I /\ I p d k.
Definition goto_of (g : grammar) (I : lrset) (x : sym) : lrset := clo g (F_std g) (move g I x).
(** What the LR(1) states with the core of [I] go to with [x], together. *)
Definition reach (g : grammar) (I : lrset) (x : sym) : lrset :=
  union_of (fun K => exists I', (lr_state g (F_std g) I' /\ same_core I I') /\ K = goto_of g I' x).
(** Two states with the same core are together a state, or all states with this core. *)
Definition pairs_kept (g : grammar) : Prop :=
  forall I J, lr_state g (F_std g) I -> lr_state g (F_std g) J -> same_core I J ->
  (exists K, lr_state g (F_std g) K /\ set_eq (union_of (fun H => H = I \/ H = J)) K) \/
  set_eq (union_of (fun H => H = I \/ H = J)) (lalr_of g (F_std g) I).
