(** Specification for C86: expressions of the operator grammars of [MixSpec], with brackets. *)
From Verif Require Import Base Grammar GrammarSpec IsoSpec MixSpec.

(** There are expressions of every sort and level. *)
Definition minhabited (M : mix) : Prop := forall s i, s < mx_sorts M -> i <= mx_top M s -> exists e, mproper M s i e.

(** An expression whose operands are of the sorts the operators ask for, whatever their levels. *)
Inductive well_sorted (M : mix) : nat -> mexp -> Prop :=
| ms_op s i f es : is_form M s i f -> Forall2 (fun h e => well_sorted M (fst h) e) (holes (form_slots M s i f)) es -> well_sorted M s (MOp s i f es).

(** Brackets of a sort: a terminal, any expression of the sort, a terminal. *)
Definition brackets (M : mix) (s : nat) (f : form) : Prop :=
  is_form M s (mx_top M s) f /\ fm_l f = false /\ fm_r f = false /\ exists t, fm_more f = [PArg s t].

(** The second expression is the first with brackets added. *)
Inductive adds (br : nat -> form) (M : mix) : mexp -> mexp -> Prop :=
| ad_op s i f es es' : Forall2 (adds br M) es es' -> adds br M (MOp s i f es) (MOp s i f es')
| ad_br s i f es e : adds br M (MOp s i f es) e -> adds br M (MOp s i f es) (MOp s (mx_top M s) (br s) [e]).

(** The number of operators of an expression. *)
Fixpoint msize (e : mexp) : nat := match e with MOp _ _ _ es => S (list_sum (map msize es)) end.
