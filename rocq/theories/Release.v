(** Model of what an optimised ("release") build does differently: [debug_assert] is compiled out
    and integer arithmetic wraps around instead of panicking.  The other files model a debug build,
    but for the counter of /repo/src/lalr.rs:89-91, which is modelled here.  The places are all the
    subtractions and [debug_assert]s outside [Debug] implementations: support.rs:22, 32 and 45,
    dfa.rs:267, item.rs:169 and lalr.rs:91 and 110.  Additions to lengths, indices and code points
    cannot overflow a machine word. *)
From Verif Require Import Base Regex Nfa Overlap Dfa Lex Grammar Support Item Table Parse.

(** support.rs:18-49: [count() - 2] of fewer than two characters wraps around to more than any text
    has, so that everything after the first character is taken. *)
Definition strip_release (s : str) : str := if length s <? 2 then skipn 1 s else firstn (length s - 2) (skipn 1 s).
(** support.rs:18-25 [alloc_quoted_str]. *)
Definition alloc_quoted_str_release (s : str) : str := strip_release s.
(** support.rs:27-35 [alloc_ts_code]. *)
Definition alloc_ts_code_release (s : str) : str := strip_release s.
(** support.rs:37-49 [alloc_regex]. *)
Definition alloc_regex_release (s : str) : str := if byte_len s <? 3 then [] else strip_release s.

(** dfa.rs:259-276 [move_set]: [label.range.end - 1] of 0 is [u32::MAX]. *)
Definition move_set_release (n : nfa) (set : list nat) (label : rng) : res (list nat) :=
  let last := (if snd label =? 0 then 4294967295 else snd label - 1)%N in
  foldM (fun ret s =>
    let* es := edge_iter n s in
    Ok (fold_left (fun ret e =>
      match e_label e with
      | None => ret
      | Some l => if matches l (fst label) && matches l last then set_insert (e_to e) ret else ret
      end) es ret)) set [].

(** item.rs:168-174 [union]: items of [other] only are left out. *)
Definition union_release (s other : item_set) : res item_set :=
  mapM (fun e => match map_get (fst e) other with
                 | None => Panic PUnwrapNone
                 | Some las => Ok (fst e, set_extend las (snd e))
                 end) s.

(** table.rs:263-276. *)
Fixpoint merge_rest_release (sets : list item_set) (is : list nat) (st : item_set * list bool)
  : res (item_set * list bool) :=
  match is with
  | [] => Ok st
  | i :: is' =>
      let '(s, presence) := st in
      let* (other, presence') := take_set sets presence i in
      let* s' := union_release s other in
      merge_rest_release sets is' (s', presence')
  end.
(** table.rs:244-279 [merge_sets_with_same_core]. *)
Definition merge_sets_release (sets : list item_set) (is : list nat) (presence : list bool)
  : res (item_set * list bool) :=
  match is with
  | [] => Panic PIndex
  | first :: is' =>
      let* st := take_set sets presence first in
      merge_rest_release sets is' st
  end.
(** table.rs:230-239. *)
Definition merge_group_release (sets : list item_set) (st : mstate) (grp : N * list nat) : res mstate :=
  let m := fold_left (fun m i => map_insert i (length (ms_result st)) m) (snd grp) (ms_map st) in
  let* (s, presence) := merge_sets_release sets (snd grp) (ms_presence st) in
  Ok (MState presence m (index_set_insert (ms_result st) s)).
(** table.rs:211-242 [merge_cores]. *)
Definition merge_cores_release (hash : list item -> N) (sets : list item_set)
  : res (list item_set * list (nat * nat)) :=
  let groups := group_cores hash 0 sets [] in
  let* st := foldM (merge_group_release sets) groups (MState (map (fun _ => true) sets) [] []) in
  Ok (ms_result st, ms_map st).
(** table.rs:75-87 [make_tables]. *)
Definition make_tables_release (hash : list item -> N) (g : grammar) : res tables :=
  let* lr := items g in
  let* (lalr, m) := merge_cores_release hash lr in
  let* (act, got) := make_lalr_tables g lalr lr m in
  Ok (Tables act got lalr).

(** lalr.rs:90-155: one iteration.  [stack.len() - production.input_tokens.len()] wraps around to
    more than the length of the stack, and truncating to it does nothing.  The counter wraps around
    unnoticed. *)
Definition parse_step_release (g : grammar) (t : tables) (tokens : list nat) (s : pstate)
  : pstate + res (list nat) :=
  match ps_stack s with
  | [] => inr (Panic PStackEmpty)
  | top :: _ =>
      match tbl_get (t_action t) top (ps_a s) with
      | Some (Shift q) =>
          let '(i', a') := next_token tokens (ps_i s) (ps_a s) in
          inl (PState (q :: ps_stack s) i' a' (ps_trace s))
      | Some (Reduce p) =>
          match get_production g p with
          | None => inr (Panic PNoProduction)
          | Some pr =>
              let st := if length (ps_stack s) <? length (p_syms pr) then ps_stack s
                        else skipn (length (p_syms pr)) (ps_stack s) in
              match st with
              | [] => inr (Panic PStackEmpty)
              | top' :: _ =>
                  match tbl_get (t_goto t) top' (p_name pr) with
                  | None => inr (Panic PGotoEmpty)
                  | Some q => inl (PState (q :: st) (ps_i s) (ps_a s) (ps_trace s ++ [p]))
                  end
              end
          end
      | Some Accept => inr (Ok (ps_trace s))
      | None => inr (Panic PInvalidToken)
      end
  end.
(** lalr.rs:51-159 [parse_impl]. *)
Definition parse_impl_release (g : grammar) (t : tables) (tokens : list nat) : res (list nat) :=
  match tokens with
  | [] => Panic PIndex
  | a :: _ =>
      match run (parse_step_release g t tokens) (parse_bits g tokens) (parse_init a) with
      | inl _ => Diverge
      | inr r => r
      end
  end.

(** lalr.rs:89-155 in a debug build, with the counter: [loop_count] is an [i32], which overflows in
    the iteration after 2147483647 others. *)
Definition i32_max : N := 2147483647.
(** lalr.rs:89-155: one iteration in a debug build. *)
Definition parse_step_debug (g : grammar) (t : tables) (tokens : list nat) (s : N * pstate)
  : (N * pstate) + res (list nat) :=
  if (fst s =? i32_max)%N then inr (Panic PUnderflow)
  else match parse_step g t tokens (snd s) with
       | inl s' => inl ((fst s + 1)%N, s')
       | inr r => inr r
       end.
(** lalr.rs:51-159 [parse_impl] in a debug build; the counter bounds the iterations. *)
Definition parse_impl_debug (g : grammar) (t : tables) (tokens : list nat) : res (list nat) :=
  match tokens with
  | [] => Panic PIndex
  | a :: _ =>
      match run (parse_step_debug g t tokens) 32 (0%N, parse_init a) with
      | inl _ => Diverge
      | inr r => r
      end
  end.
