(** Specification of the LALR(1) automaton, on sets of triples (production, dot, lookahead). *)
From Verif Require Import Base Grammar GrammarSpec First Item ItemSpec.

Definition set_eq (I J : lrset) : Prop := forall p d k, I p d k <-> J p d k.
Definition same_core (I J : lrset) : Prop := forall p d, (exists k, I p d k) <-> (exists k, J p d k).

(** The LALR state of an LR(1) state: the union of all LR(1) states with its core. *)
Definition lalr_of (g : grammar) (F : list sym -> sym -> Prop) (I : lrset) : lrset :=
  fun p d k => exists I', lr_state g F I' /\ same_core I I' /\ I' p d k.

(** What the code looks up instead of the state with the right core: [goto J x] itself, among
    the LR(1) and the LALR states. *)
Definition found (g : grammar) (F : list sym -> sym -> Prop) (J : lrset) (x : sym) : Prop :=
  exists I, lr_state g F I /\
    (set_eq (clo g F (move g J x)) I \/ set_eq (clo g F (move g J x)) (lalr_of g F I)).

(** The item (p, d) of state [J] puts an entry under token [k]. *)
Definition wants (g : grammar) (F : list sym -> sym -> Prop) (J : lrset) (p d k : nat) : Prop :=
  (complete g p d /\ J p d k) \/
  (exists x, sym_at g p d x /\ terminal x /\ tok g k x /\ (exists k', J p d k') /\ found g F J x).

(** A state with two actions for one token: a complete item with lookahead [k] and another item
    that is complete with the same lookahead or has that token after the dot. *)
Definition conflict (g : grammar) (J : lrset) : Prop :=
  exists p d p' d' k, (p, d) <> (p', d') /\ complete g p d /\ J p d k /\
    ((complete g p' d' /\ J p' d' k) \/
     (exists x k', sym_at g p' d' x /\ terminal x /\ tok g k x /\ J p' d' k')).

(** Tables can be asked for several hash functions; only their collisions on the cores matter. *)
Definition collision_free (hash : list item -> N) (sets : list item_set) : Prop :=
  forall s s', In s sets -> In s' sets -> hash (map fst s) = hash (map fst s') -> map fst s = map fst s'.
