(** Specification for C90: expressions of the grammars of [SeqSpec] that exist, and how large they are. *)
From Verif Require Import Base Grammar GrammarSpec IsoSpec SeqSpec.

(** There are expressions of every sort and level. *)
Definition linhabited (M : lang) : Prop := forall s i, s < lg_sorts M -> i <= lg_top M s -> exists e, lproper M s i e.

(** The number of operators of an expression. *)
Fixpoint lsize (e : lexp) : nat := match e with LOp _ _ _ ess => S (list_sum (map (fun es => list_sum (map lsize es)) ess)) end.
