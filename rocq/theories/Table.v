(** Model of /repo/src/lalr/table.rs: merging of LR(1) states and the parsing tables. *)
From Verif Require Import Base Grammar First Item.

(** table.rs:14-20 [Action]. *)
Inductive action := Shift (s : nat) | Reduce (p : nat) | Accept.

(** table.rs:22-25 [Table]: nested BTreeMaps. *)
Definition table (K V : Type) := list (nat * list (K * V)).

Section Tables.
  Context {K V : Type} `{Ord K}.
  (** table.rs:34-39 [try_index]. *)
  Definition tbl_get (t : table K V) (i : nat) (k : K) : option V :=
    match map_get i t with Some m => map_get k m | None => None end.
  (** table.rs:52-60 [insert]. *)
  Definition tbl_insert (t : table K V) (i : nat) (k : K) (v : V) : table K V :=
    map_alter i (fun o => map_insert k v (match o with Some m => m | None => [] end)) t.
End Tables.

(** table.rs:27 [ActionTable]. *)
Definition action_table := table nat action.
(** table.rs:28 [GotoTable]. *)
Definition goto_table := table str nat.

(** item.rs:153-163 [core_hash]: the hash of the keys; the hash function (std's DefaultHasher)
    is a parameter. *)
Definition core (s : item_set) : list item := map fst s.

(** table.rs:213-220: [IndexMap] from core hash to the indices having it, in order of first
    occurrence. *)
Fixpoint group_push (h : N) (i : nat) (l : list (N * list nat)) : list (N * list nat) :=
  match l with
  | [] => [(h, [i])]
  | (h', is) :: l' => if (h =? h')%N then (h', is ++ [i]) :: l' else (h', is) :: group_push h i l'
  end.
(** table.rs:215-220: the loop over all sets. *)
Fixpoint group_cores (hash : list item -> N) (i : nat) (sets : list item_set)
    (l : list (N * list nat)) : list (N * list nat) :=
  match sets with
  | [] => l
  | s :: sets' => group_cores hash (S i) sets' (group_push (hash (core s)) i l)
  end.

(** table.rs:249-261 and 263-274: take the set at an index, once. *)
Definition take_set (sets : list item_set) (presence : list bool) (i : nat)
  : res (item_set * list bool) :=
  match nth_error presence i with
  | None => Panic PIndex
  | Some false => Panic PDropped
  | Some true =>
      match nth_error sets i with
      | None => Panic PIndex
      | Some s => Ok (s, update_nth i (fun _ => false) presence)
      end
  end.

(** table.rs:263-276. *)
Fixpoint merge_rest (sets : list item_set) (is : list nat) (st : item_set * list bool)
  : res (item_set * list bool) :=
  match is with
  | [] => Ok st
  | i :: is' =>
      let '(s, presence) := st in
      let* (other, presence') := take_set sets presence i in
      let* s' := union s other in
      merge_rest sets is' (s', presence')
  end.
(** table.rs:244-279 [merge_sets_with_same_core]. *)
Definition merge_sets (sets : list item_set) (is : list nat) (presence : list bool)
  : res (item_set * list bool) :=
  match is with
  | [] => Panic PIndex
  | first :: is' =>
      let* st := take_set sets presence first in
      merge_rest sets is' st
  end.

(** table.rs:230-239: the groups in order. *)
Record mstate := MState { ms_presence : list bool; ms_map : list (nat * nat); ms_result : list item_set }.
(** table.rs:230-239: one group. *)
Definition merge_group (sets : list item_set) (st : mstate) (grp : N * list nat) : res mstate :=
  let m := fold_left (fun m i => map_insert i (length (ms_result st)) m) (snd grp) (ms_map st) in
  let* (s, presence) := merge_sets sets (snd grp) (ms_presence st) in
  Ok (MState presence m (index_set_insert (ms_result st) s)).

(** table.rs:211-242 [merge_cores]. *)
Definition merge_cores (hash : list item -> N) (sets : list item_set)
  : res (list item_set * list (nat * nat)) :=
  let groups := group_cores hash 0 sets [] in
  let* st := foldM (merge_group sets) groups (MState (map (fun _ => true) sets) [] []) in
  Ok (ms_result st, ms_map st).

(** table.rs:99-116 [compute_goto]. *)
Definition compute_goto (g : grammar) (lalr lr : list item_set) (m : list (nat * nat))
    (s : item_set) (a : sym) : res (option nat) :=
  let* j := goto g s a in
  Ok (match is_index lr j with
      | None => is_index lalr j
      | Some k => map_get k m
      end).

(** The [entry] of the action table: insert, or panic when occupied (table.rs:138-141, 152-162,
    167-170). *)
Definition action_put (t : action_table) (i k : nat) (a : action) : res action_table :=
  match tbl_get t i k with
  | Some _ => Panic PConflict
  | None => Ok (tbl_insert t i k a)
  end.

(** table.rs:147-171: a complete item. *)
Definition reduce_entry (i : nat) (it : item) (t : action_table) (la : nat) : res action_table :=
  if (la =? EOF_IDX) && (fst it =? 0) then action_put t i EOF_IDX Accept
  else action_put t i la (Reduce (fst it)).

(** table.rs:119-172: one item of state [i]. *)
Definition action_item (g : grammar) (lalr lr : list item_set) (m : list (nat * nat))
    (i : nat) (s : item_set) (t : action_table) (e : item * list nat) : res action_table :=
  let '(it, las) := e in
  let* o := dot_token g it in
  match o with
  | Some x =>
      if is_term x then
        match get_token_idx g x with
        | None => Panic PUnwrapNone
        | Some k =>
            let* gi := compute_goto g lalr lr m s x in
            match gi with
            | None => Ok t
            | Some j => action_put t i k (Shift j)
            end
        end
      else Ok t
  | None => foldM (reduce_entry i it) las t
  end.

(** table.rs:118-173: one state. *)
Definition action_state (g : grammar) (lalr lr : list item_set) (m : list (nat * nat))
    (t : action_table) (e : nat * item_set) : res action_table :=
  foldM (action_item g lalr lr m (fst e) (snd e)) (snd e) t.

(** table.rs:118 and 175 [iter().enumerate()]. *)
Definition enumerate {A} (l : list A) : list (nat * A) := combine (seq 0 (length l)) l.

(** table.rs:176-195: one non-terminal of state [i]. *)
Definition goto_entry (g : grammar) (lalr lr : list item_set) (m : list (nat * nat))
    (i : nat) (s : item_set) (t : goto_table) (nt : nat * str) : res goto_table :=
  let* j := goto g s (SNon (snd nt)) in
  match is_index lr j with
  | Some k => match map_get k m with
              | None => Panic PUnwrapNone
              | Some v => Ok (tbl_insert t i (snd nt) v)
              end
  | None => match is_index lalr j with
            | Some v => Ok (tbl_insert t i (snd nt) v)
            | None => Ok t
            end
  end.
(** table.rs:175-196: one state. *)
Definition goto_state (g : grammar) (lalr lr : list item_set) (m : list (nat * nat))
    (t : goto_table) (e : nat * item_set) : res goto_table :=
  foldM (goto_entry g lalr lr m (fst e) (snd e)) (non_terminals g) t.

(** table.rs:89-199 [make_lalr_tables]. *)
Definition make_lalr_tables (g : grammar) (lalr lr : list item_set) (m : list (nat * nat))
  : res (action_table * goto_table) :=
  let* act := foldM (action_state g lalr lr m) (enumerate lalr) [] in
  let* got := foldM (goto_state g lalr lr m) (enumerate lalr) [] in
  Ok (act, got).

(** table.rs:75-87 [make_tables]. *)
Record tables := Tables { t_action : action_table; t_goto : goto_table; t_states : list item_set }.
(** table.rs:75-87 [make_tables]. *)
Definition make_tables (hash : list item -> N) (g : grammar) : res tables :=
  let* lr := items g in
  let* (lalr, m) := merge_cores hash lr in
  let* (act, got) := make_lalr_tables g lalr lr m in
  Ok (Tables act got lalr).
