(** Model of /repo/src/lex/nfa.rs: Thompson construction and NFA simulation.
    [OptionUsize] fields are [option nat] (the packing is modelled in OptionUsize.v). *)
From Verif Require Import Base Regex.

(** nfa.rs:21-24 [Match]: a half-open range of code numbers; its [Ord] (nfa.rs:486-496,
    521-527) is the lexicographic order of (start, end), i.e. [Ord_pair]. *)
Definition rng : Type := N * N.

(** nfa.rs:554-558 [matches] and 507-509 [contains_u32]. *)
Definition matches (m : rng) (c : N) : bool := (fst m <=? c)%N && (c <? snd m)%N.

(** nfa.rs:26-32 [Edge]. *)
Record edge := Edge { e_from : nat; e_label : option rng; e_to : nat }.
(** nfa.rs:34-39 [State]. *)
Record state := State { first_edge : option nat; is_accept : bool }.
(** nfa.rs:15-19 [NFA]. *)
Record nfa := NFA { edges : list edge; states : list state }.

(** nfa.rs:62-63. *)
Definition START_IDX : nat := 0.
(** nfa.rs:63. *)
Definition FINAL_ACCEPT_IDX : nat := 1.

(** nfa.rs:93-101 [push_edge]. *)
Definition push_edge (n : nfa) (from : nat) (label : option rng) (to : nat) : res nfa :=
  if from <? length (states n) then
    Ok (NFA (edges n ++ [Edge from label to])
            (update_nth from
               (fun st => match first_edge st with
                          | None => State (Some (length (edges n))) (is_accept st)
                          | Some _ => st
                          end) (states n)))
  else Panic PIndex.

(** nfa.rs:133-136 and similar: push a fresh, non-accepting state; its index is the old
    length. *)
Definition push_state (n : nfa) : nfa := NFA (edges n) (states n ++ [State None false]).

(** nfa.rs:236-246 [compile_match]. *)
Definition compile_match (n : nfa) (m : rng) (accept : nat) : res (nfa * option nat) :=
  let from := length (states n) in
  let* n' := push_edge (push_state n) from (Some m) accept in
  Ok (n', Some from).

(** [OptionUsize::unwrap]. option_usize.rs:6-12. *)
Definition unwrap {A} (o : option A) : res A :=
  match o with Some a => Ok a | None => Panic PUnwrapNone end.

(** nfa.rs:152-154, 228-230: the loop pushing an epsilon edge from [i] to each target. *)
Fixpoint push_targets (n : nfa) (i : nat) (targets : list (option nat)) : res nfa :=
  match targets with
  | [] => Ok n
  | t :: ts =>
      let* t' := unwrap t in
      let* n' := push_edge n i None t' in
      push_targets n' i ts
  end.

(** nfa.rs:147-150: compile each range of a class in order. *)
Fixpoint compile_ranges (n : nfa) (rs : list rng) (accept : nat)
  : res (nfa * list (option nat)) :=
  match rs with
  | [] => Ok (n, [])
  | r :: rs' =>
      let* (n1, t) := compile_match n r accept in
      let* (n2, ts) := compile_ranges n1 rs' accept in
      Ok (n2, t :: ts)
  end.

(** nfa.rs:161-194: is the repetition kind one that loops / may be skipped? *)
Definition rep_loops (k : rep_kind) : bool :=
  match k with OneOrMore | ZeroOrMore => true | _ => false end.
(** nfa.rs:161-194: may the repetition be skipped? *)
Definition rep_skips (k : rep_kind) : bool :=
  match k with ZeroOrOne | ZeroOrMore => true | _ => false end.

(** nfa.rs:161-194: an epsilon edge that only some kinds of repetition get. *)
Definition push_edge_if (b : bool) (n : nfa) (from to : nat) : res nfa :=
  if b then push_edge n from None to else Ok n.

(** nfa.rs:103-234 [compile]. *)
Fixpoint compile (h : hir) (n : nfa) (accept : nat) {struct h} : res (nfa * option nat) :=
  match h with
  | HEmpty => Ok (n, None)
  | HLit c => compile_match n (c, (c + 1)%N) accept
  | HClass ranges =>
      let rs := map (fun r => (fst r, (snd r + 1)%N)) ranges in
      let f_idx := length (states n) in
      let* n1 := push_edge (push_state n) f_idx None accept in
      let i_idx := length (states n1) in
      let* (n2, targets) := compile_ranges (push_state n1) rs f_idx in
      let* n3 := push_targets n2 i_idx targets in
      Ok (n3, Some i_idx)
  | HAnchor => Panic PTodo
  | HWordBoundary => Panic PTodo
  | HRep (RepRange _ _) _ => Panic PTodo
  | HRep k h' =>
      let s_out := length (states n) in
      let* (n1, r) := compile h' (push_state n) s_out in
      let* s_in := unwrap r in
      let* n2 := push_edge n1 s_out None accept in
      let* n3 := push_edge_if (rep_loops k) n2 s_out s_in in
      let i := length (states n3) in
      let* n4 := push_edge (push_state n3) i None s_in in
      let* n5 := push_edge_if (rep_skips k) n4 i accept in
      Ok (n5, Some i)
  | HGroup h' => compile h' n accept
  | HConcat hs =>
      (* nfa.rs:199-205: iterates [exprs.iter().rev()], so the tail is compiled first *)
      let fix go (l : list hir) : res (nfa * nat) :=
        match l with
        | [] => Ok (n, accept)
        | e :: l' =>
            let* (n1, a1) := go l' in
            let* (n2, r) := compile e n1 a1 in
            let* a2 := unwrap r in
            Ok (n2, a2)
        end in
      let* (n', a) := go hs in
      Ok (n', Some a)
  | HAlt hs =>
      let f_idx := length (states n) in
      let* n1 := push_edge (push_state n) f_idx None accept in
      let i_idx := length (states n1) in
      let fix go (l : list hir) (m : nfa) : res (nfa * list (option nat)) :=
        match l with
        | [] => Ok (m, [])
        | e :: l' =>
            let* (m1, t) := compile e m f_idx in
            let* (m2, ts) := go l' m1 in
            Ok (m2, t :: ts)
        end in
      let* (n2, targets) := go hs (push_state n1) in
      let* n3 := push_targets n2 i_idx targets in
      Ok (n3, Some i_idx)
  end.

(** nfa.rs:66-80: the two initial states. *)
Definition nfa_init : nfa := NFA [] [State None false; State None true].

(** nfa.rs:65-91 [from_regex]. *)
Definition from_regex (h : hir) : res nfa :=
  let* (n, after_start) := compile h nfa_init FINAL_ACCEPT_IDX in
  push_edge n START_IDX None
    (match after_start with Some s => s | None => FINAL_ACCEPT_IDX end).

(** nfa.rs:443-475 [edge_iter]/[EdgeIter], and the equivalent inlined loops in
    nfa.rs:286-306 and 324-344: walk from [first_edge] while the source state matches. *)
Definition edge_iter (n : nfa) (s : nat) : res (list edge) :=
  match nth_error (states n) s with
  | None => Panic PIndex
  | Some st => Ok match first_edge st with
                  | None => []
                  | Some k => take_while (fun e => e_from e =? s) (skipn k (edges n))
                  end
  end.

(** A [HashSet<StateIdx>] is a duplicate-free list; only its iteration order is
    unspecified.  [hs_insert] is [HashSet::insert]. Used in nfa.rs:281-349. *)
Definition hs_insert (x : nat) (l : list nat) : list nat :=
  if set_mem x l then l else l ++ [x].

(** nfa.rs:281-310 [move_state]; the argument is already in iteration order. *)
Definition move_state (n : nfa) (set : list nat) (c : N) : res (list nat) :=
  foldM (fun ret s =>
    let* es := edge_iter n s in
    Ok (fold_left (fun ret e => match e_label e with
                                | Some m => if matches m c then hs_insert (e_to e) ret else ret
                                | None => ret
                                end) es ret)) set [].

(** nfa.rs:334-343: the targets of [es] pushed on the stack, in order (the head of the list
    is the top of the stack). *)
Fixpoint push_eps (es : list edge) (ret stack : list nat) : list nat :=
  match es with
  | [] => stack
  | e :: es' =>
      match e_label e with
      | None => if set_mem (e_to e) ret then push_eps es' ret stack
                else push_eps es' ret (e_to e :: stack)
      | Some _ => push_eps es' ret stack
      end
  end.

(** nfa.rs:317-346: the closure loop. *)
Fixpoint eps_loop (fuel : nat) (n : nfa) (ret stack : list nat) : res (list nat) :=
  match stack with
  | [] => Ok ret
  | s :: stack' =>
      match fuel with
      | O => Diverge
      | S fuel' =>
          let ret' := hs_insert s ret in
          let* es := edge_iter n s in
          eps_loop fuel' n ret' (push_eps es ret' stack')
      end
  end.

(** nfa.rs:312-349 [epsilon_closure]; [set] in iteration order, its last element is the top
    of the stack.  The fuel is proved sufficient. *)
Definition nfa_epsilon_closure (n : nfa) (set : list nat) : res (list nat) :=
  eps_loop (length set + length (edges n)) n [] (rev set).

(** nfa.rs:425-433 [accepting_states], also inlined in [simulate] (nfa.rs:264-276). *)
Definition accepting_states (n : nfa) : list nat :=
  filter (fun i => match nth_error (states n) i with
                   | Some st => is_accept st | None => false end)
         (seq 0 (length (states n))).

(** nfa.rs:351-362 [has_accepting_states]. *)
Definition has_accepting_states (final accepting : list nat) : bool :=
  match final with
  | [] => false
  | _ => existsb (fun s => set_mem s accepting) final
  end.

Section Simulate.
  (** [shuf k l]: the order in which the k-th iterated HashSet yields its elements. *)
  Variable shuf : nat -> list nat -> list nat.

  (** nfa.rs:260-262: the loop over the characters. *)
  Fixpoint simulate_from (n : nfa) (k : nat) (set : list nat) (s : list N) : res (list nat) :=
    match s with
    | [] => Ok set
    | c :: s' =>
        let* m := move_state n (shuf k set) c in
        let* set' := nfa_epsilon_closure n (shuf (S k) m) in
        simulate_from n (S (S k)) set' s'
    end.

  (** nfa.rs:251-255 [starting_state] and 257-279 [simulate]. *)
  Definition nfa_simulate (n : nfa) (s : list N) : res bool :=
    let* start := nfa_epsilon_closure n (shuf 0 [START_IDX]) in
    let* final := simulate_from n 1 start s in
    Ok (has_accepting_states final (accepting_states n)).
End Simulate.
