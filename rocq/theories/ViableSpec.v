(** Specification of the states and lookaheads of an LALR(1) automaton by rightmost derivations,
    without closures, gotos or FIRST sets. *)
From Verif Require Import Base Grammar GrammarSpec ItemSpec Table ParseSpec.

(** Rightmost derivations: the rewritten symbol has only terminals to its right. *)
Inductive rderives (g : grammar) (u : list sym) : list sym -> Prop :=
| rd_refl : rderives g u u
| rd_step a A b w : rderives g u (a ++ SNon A :: w) -> rule g A b -> terminals w -> rderives g u (a ++ b ++ w).

(** The index of the token a sequence of terminals begins with; that of EOF if it is empty. *)
Definition next_token (g : grammar) (w : list sym) (k : nat) : Prop :=
  match w with [] => k = 0 | x :: _ => tok g k x end.

(** The item [A -> b . c] with lookahead [k] is valid after [u]: [u] ends in [b], and what comes
    before with [A] and some terminals beginning with [k] is a rightmost sentential form.
    Production 0 rewrites the symbol made up for the start. *)
Definition valid (g : grammar) (start : str) (u : list sym) (p d k : nat) : Prop :=
  exists pr a w, nth_error (g_prods g) p = Some pr /\ d <= length (p_syms pr) /\ u = a ++ firstn d (p_syms pr) /\
    ((p = 0 /\ a = [] /\ w = []) \/ rderives g [SNon start] (a ++ SNon (p_name pr) :: w)) /\
    terminals w /\ next_token g w k.

(** Some item is valid after [u]: in the literature, [u] is a viable prefix. *)
Definition viable (g : grammar) (start : str) (u : list sym) : Prop := exists p d k, valid g start u p d k.

(** Token [k] (EOF for none) comes next after [u] in some rightmost sentential form. *)
Definition comes_next (g : grammar) (start : str) (u : list sym) (k : nat) : Prop :=
  exists w, rderives g [SNon start] (u ++ w) /\ terminals w /\ next_token g w k.

(** State [i] of the tables is the state for [u]: it has the items valid after [u], whatever
    their lookaheads. *)
Definition state_for (g : grammar) (start : str) (t : tables) (u : list sym) (i : nat) : Prop :=
  forall p d, (exists k, st t i p d k) <-> (exists k, valid g start u p d k).

(** The tables lead from state [i] along [u] to state [j]. *)
Inductive walks (g : grammar) (t : tables) (i : nat) : list sym -> nat -> Prop :=
| wk_nil : walks g t i [] i
| wk_shift u j x k j' : walks g t i u j -> terminal x -> tok g k x -> tbl_get (t_action t) j k = Some (Shift j') ->
    walks g t i (u ++ [x]) j'
| wk_goto u j A j' : walks g t i u j -> tbl_get (t_goto t) j A = Some j' -> walks g t i (u ++ [SNon A]) j'.

(** Two prefixes have the same items valid, whatever the lookaheads: LALR(1) gives them one state. *)
Definition same_items (g : grammar) (start : str) (u v : list sym) : Prop :=
  forall p d, (exists k, valid g start u p d k) <-> (exists k, valid g start v p d k).

(** The grammar is not LALR(1): after two prefixes with one state, with [k] as the next token, one
    item asks for a reduction and another one for a reduction or for reading [k]. *)
Definition lalr_conflict (g : grammar) (start : str) : Prop :=
  exists u v p d p' d' k, same_items g start u v /\ (p, d) <> (p', d') /\
    complete g p d /\ valid g start u p d k /\
    ((complete g p' d' /\ valid g start v p' d' k) \/
     (exists x k', sym_at g p' d' x /\ terminal x /\ tok g k x /\ valid g start v p' d' k')).

(** Two different items ask for reading the same token after one prefix. *)
Definition same_shift (g : grammar) (start : str) : Prop :=
  exists u p d k p' d' k' x, valid g start u p d k /\ valid g start u p' d' k' /\ (p, d) <> (p', d') /\
    sym_at g p d x /\ sym_at g p' d' x /\ terminal x.
