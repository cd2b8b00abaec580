(** Model of /repo/src/lalr/first.rs. *)
From Verif Require Import Base Grammar.

(** first.rs:47-53: the loop over one body, with the recursive call as a parameter. *)
Fixpoint first_body (rec : list sym -> sym -> res (list sym * bool))
    (set : list sym) (added : bool) (l : list sym) : res (list sym * bool) :=
  match l with
  | [] => Ok (set, added)
  | y :: l' =>
      let* (set', b) := rec set y in
      if b then first_body rec set' true l' else Ok (set', added)
  end.

(** first.rs:46-54: the loop over the productions of a name. *)
Fixpoint first_prods (rec : list sym -> sym -> res (list sym * bool))
    (set : list sym) (added : bool) (ps : list (nat * production)) : res (list sym * bool) :=
  match ps with
  | [] => Ok (set, added)
  | (_, p) :: ps' =>
      let* (set', added') := first_body rec set added (p_syms p) in
      first_prods rec set' added' ps'
  end.

(** first.rs:32-57 [first_of_symbol]: the set is threaded through, the result is the returned
    boolean.  [fuel] bounds the recursion depth. *)
Fixpoint first_sym (fuel : nat) (g : grammar) (set : list sym) (x : sym) : res (list sym * bool) :=
  match as_non x with
  | None => Ok (set_insert x set, eqb x SEps)
  | Some n =>
      match fuel with
      | O => Diverge
      | S f => let* ps := production_iter g n in first_prods (first_sym f g) set false ps
      end
  end.

(** Enough recursion depth: proved to be exact (a deeper recursion never ends). Not in the code; stands for the call stack of first.rs:32-57. *)
Definition first_fuel (g : grammar) : nat := S (length (g_names g)).

(** first.rs:13-22: the loop over the symbols. *)
Fixpoint first_loop (fuel : nat) (g : grammar) (set : list sym) (prev : bool) (l : list sym)
  : res (list sym * bool) :=
  match l with
  | [] => Ok (set, prev)
  | x :: l' =>
      let* (set', _) := first_sym fuel g set x in
      let had := set_mem SEps set' in
      let set'' := set_remove SEps set' in
      if had then first_loop fuel g set'' true l' else Ok (set'', false)
  end.

(** first.rs:5-29 [first]. *)
Definition first_with (fuel : nat) (g : grammar) (l : list sym) : res (list sym) :=
  let* (set, prev) := first_loop fuel g [] true l in
  Ok (if prev then set_insert SEps set else set).
(** first.rs:5-29 [first] with that depth. *)
Definition first (g : grammar) (l : list sym) : res (list sym) := first_with (first_fuel g) g l.
