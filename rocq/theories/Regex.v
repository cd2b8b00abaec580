(** The regular expressions the generator receives: regex_syntax's [Hir] (external crate),
    as consumed by /repo/src/lex/nfa.rs:103-234, and the independent specification of the
    language such a tree denotes. *)
From Verif Require Import Base.

(** RepetitionKind (nfa.rs:161-195). *)
Inductive rep_kind := ZeroOrOne | ZeroOrMore | OneOrMore | RepRange (lo : nat) (hi : option nat).

(** HirKind (nfa.rs:104-233).  Unicode and byte literals/classes are merged: both are code
    numbers.  [HClass] has inclusive ranges, as regex_syntax has.  The payload of anchors and
    word boundaries and the kind of a group are dropped: nfa.rs ignores them. *)
Inductive hir :=
| HEmpty
| HLit (c : N)
| HClass (ranges : list (N * N))
| HAnchor
| HWordBoundary
| HRep (k : rep_kind) (h : hir)
| HGroup (h : hir)
| HConcat (hs : list hir)
| HAlt (hs : list hir).

Section HirInd.
  Variable P : hir -> Prop.
  Hypothesis Hempty : P HEmpty.
  Hypothesis Hlit : forall c, P (HLit c).
  Hypothesis Hclass : forall rs, P (HClass rs).
  Hypothesis Hanchor : P HAnchor.
  Hypothesis Hwb : P HWordBoundary.
  Hypothesis Hrep : forall k h, P h -> P (HRep k h).
  Hypothesis Hgroup : forall h, P h -> P (HGroup h).
  Hypothesis Hconcat : forall hs, Forall P hs -> P (HConcat hs).
  Hypothesis Halt : forall hs, Forall P hs -> P (HAlt hs).
  Fixpoint hir_ind' (h : hir) : P h :=
    match h with
    | HEmpty => Hempty
    | HLit c => Hlit c
    | HClass rs => Hclass rs
    | HAnchor => Hanchor
    | HWordBoundary => Hwb
    | HRep k h => Hrep k h (hir_ind' h)
    | HGroup h => Hgroup h (hir_ind' h)
    | HConcat hs => Hconcat hs ((fix go l : Forall P l :=
        match l with [] => Forall_nil _ | h :: l => Forall_cons _ (hir_ind' h) (go l) end) hs)
    | HAlt hs => Halt hs ((fix go l : Forall P l :=
        match l with [] => Forall_nil _ | h :: l => Forall_cons _ (hir_ind' h) (go l) end) hs)
    end.
End HirInd.

(** ** Specification: the language of a regular expression *)

Inductive Lang : hir -> list N -> Prop :=
| L_empty : Lang HEmpty []
| L_lit c : Lang (HLit c) [c]
| L_class rs lo hi c : In (lo, hi) rs -> (lo <= c <= hi)%N -> Lang (HClass rs) [c]
| L_opt_none h : Lang (HRep ZeroOrOne h) []
| L_opt_some h w : Lang h w -> Lang (HRep ZeroOrOne h) w
| L_star_nil h : Lang (HRep ZeroOrMore h) []
| L_star_cons h w1 w2 : Lang h w1 -> Lang (HRep ZeroOrMore h) w2 ->
    Lang (HRep ZeroOrMore h) (w1 ++ w2)
| L_plus h w1 w2 : Lang h w1 -> Lang (HRep ZeroOrMore h) w2 ->
    Lang (HRep OneOrMore h) (w1 ++ w2)
| L_range h lo hi ws : Forall (Lang h) ws -> lo <= length ws ->
    (match hi with Some m => length ws <= m | None => True end) ->
    Lang (HRep (RepRange lo hi) h) (concat ws)
| L_group h w : Lang h w -> Lang (HGroup h) w
| L_concat_nil : Lang (HConcat []) []
| L_concat_cons h hs w1 w2 : Lang h w1 -> Lang (HConcat hs) w2 ->
    Lang (HConcat (h :: hs)) (w1 ++ w2)
| L_alt h hs w : In h hs -> Lang h w -> Lang (HAlt hs) w.

(** Sub-expressions of a tree (specification of "contains"). *)
Inductive subterm : hir -> hir -> Prop :=
| sub_refl h : subterm h h
| sub_rep x k h : subterm x h -> subterm x (HRep k h)
| sub_group x h : subterm x h -> subterm x (HGroup h)
| sub_concat x h hs : In h hs -> subterm x h -> subterm x (HConcat hs)
| sub_alt x h hs : In h hs -> subterm x h -> subterm x (HAlt hs).

(** The constructs nfa.rs leaves as [todo!()] (nfa.rs:159,160,195). *)
Definition unsupported (h : hir) : Prop :=
  match h with
  | HAnchor | HWordBoundary | HRep (RepRange _ _) _ => True
  | _ => False
  end.

(** Groups around the empty expression. *)
Inductive grouped_empty : hir -> Prop :=
| ge_empty : grouped_empty HEmpty
| ge_group h : grouped_empty h -> grouped_empty (HGroup h).
