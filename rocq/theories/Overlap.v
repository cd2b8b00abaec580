(** Model of [remove_overlap] / [add_range], /repo/src/lex/dfa.rs:279-353, and of the range
    predicates of [Match], /repo/src/lex/nfa.rs:504-519. *)
From Verif Require Import Base Regex Nfa.
Local Open Scope N_scope.

(** [Range::is_empty]. nfa.rs:512. *)
Definition rng_empty (r : rng) : bool := negb (fst r <? snd r).

(** nfa.rs:511-515 [intersects]. *)
Definition intersects (a b : rng) : bool :=
  negb (rng_empty a) && negb (rng_empty b) && (matches a (fst b) || matches b (fst a)).

(** nfa.rs:517-519 [is_disjoint]. *)
Definition is_disjoint (a b : rng) : bool := negb (intersects a b).

(** dfa.rs:322-336: the three parts of a split. *)
Definition low_part (r o : rng) : rng := (N.min (fst r) (fst o), N.max (fst r) (fst o)).
(** dfa.rs:322-336: the second. *)
Definition mid_part (r o : rng) : rng := (N.max (fst r) (fst o), N.min (snd r) (snd o)).
(** dfa.rs:322-336: the third. *)
Definition max_part (r o : rng) : rng := (N.min (snd r) (snd o), N.max (snd r) (snd o)).

(** The pending calls [add_range(range, start_index)], innermost first, and the vector. The call stack of dfa.rs:300-353. *)
Definition ar_state : Type := list (rng * nat) * list rng.

(** dfa.rs:300-353 [add_range], one call.  The two recursive calls (dfa.rs:344-345) are put
    on the work list in the order in which they run. *)
Definition ar_step (s : ar_state) : ar_state + res (list rng) :=
  let (work, v) := s in
  match work with
  | [] => inr (Ok v)
  | (range, start) :: work' =>
      if rng_empty range then inl (work', v)
      else if Nat.ltb (length v) start then inr (Panic PIndex)
      else match find_index (fun r => intersects r range) (skipn start v) with
      | Some i =>
          let index := (i + start)%nat in
          match nth_error v index with
          | None => inr (Panic PIndex)
          | Some o =>
              if eqb o range then inl (work', v)
              else
                let low := low_part range o in
                let mid := mid_part range o in
                let max := max_part range o in
                if is_disjoint low mid && is_disjoint low max && is_disjoint mid max then
                  inl ((mid, S index) :: (max, S index) :: work', update_nth index (fun _ => low) v)
                else inr (Panic PAssert)
          end
      | None => inl (work', v ++ [range])
      end
  end.

(** Not in the code; for the fuel of dfa.rs:300-353. *)
Definition rng_size (r : rng) : N := snd r - fst r.
(** Not in the code; for the fuel of dfa.rs:300-353. *)
Definition sizes (l : list rng) : N := fold_right (fun r n => rng_size r + n) 0 l.
(** Bounds the number of calls; used only to choose the fuel. Not in the code, dfa.rs:300-353. *)
Definition ar_measure (s : ar_state) : N :=
  2 * (sizes (map fst (fst s)) + sizes (snd s)) + N.of_nat (length (fst s)).

(** dfa.rs:300-353 [add_range], with the calls it makes. *)
Definition ar_run (s : ar_state) : res (list rng) :=
  match run ar_step (S (N.size_nat (ar_measure s))) s with
  | inl _ => Diverge
  | inr r => r
  end.

(** dfa.rs:300-353 [add_range]. *)
Definition add_range (range : rng) (start : nat) (v : list rng) : res (list rng) :=
  ar_run ([(range, start)], v).

(** dfa.rs:280-298 [remove_overlap]; the argument is a BTreeSet, i.e. a sorted list. *)
Definition remove_overlap (ranges : list rng) : res (list rng) :=
  let* v := foldM (fun v r => add_range r 0 v) ranges [] in
  Ok (filter (fun r => negb (rng_empty r)) v).
