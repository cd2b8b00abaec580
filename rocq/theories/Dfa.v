(** Model of /repo/src/lex/dfa.rs: subset construction and DFA simulation, and of the parts
    of /repo/src/lex/nfa.rs it uses ([labels]). *)
From Verif Require Import Base Regex Nfa Overlap.

(** dfa.rs:29-34 [Edge]. *)
Record dedge := DEdge { de_from : nat; de_label : rng; de_to : nat }.

(** dfa.rs:12-20 [DFA]; dfa.rs:36-42 [State] holds only its [first_edge]. *)
Record dfa := DFA {
  d_edges : list dedge;
  d_first : list (option nat);
  dfa_to_nfa : list (nat * list nat);
  d_accepting : list nat }.

(** nfa.rs:409-423 [labels]. *)
Definition nfa_labels (n : nfa) : res (list rng) :=
  foldM (fun ret i =>
    let* es := edge_iter n i in
    Ok (ret ++ flat_map (fun e => match e_label e with Some m => [m] | None => [] end) es))
    (seq 0 (length (states n))) [].

(** dfa.rs:238-257 [epsilon_closure], the body of the [for] over the epsilon edges: insert
    each target, push it if it is new.  The head of the list is the top of the stack. *)
Fixpoint dclo_push (es : list edge) (set stack : list nat) : list nat * list nat :=
  match es with
  | [] => (set, stack)
  | e :: es' =>
      match e_label e with
      | None => if set_mem (e_to e) set then dclo_push es' set stack
                else dclo_push es' (set_insert (e_to e) set) (e_to e :: stack)
      | Some _ => dclo_push es' set stack
      end
  end.

(** dfa.rs:244-254: the [while let] loop. *)
Fixpoint dclo_loop (fuel : nat) (n : nfa) (set stack : list nat) : res (list nat) :=
  match stack with
  | [] => Ok set
  | s :: stack' =>
      match fuel with
      | O => Diverge
      | S fuel' =>
          let* es := edge_iter n s in
          let (set', stack'') := dclo_push es set stack' in
          dclo_loop fuel' n set' stack''
      end
  end.

(** dfa.rs:238-257 [epsilon_closure].  Every state is pushed at most once, so the number of
    states is enough fuel (proved). *)
Definition dfa_epsilon_closure (n : nfa) (set : list nat) : res (list nat) :=
  dclo_loop (length (states n)) n set (rev set).

(** dfa.rs:259-276 [move_set].  [label.range.end - 1] underflows on an end of 0. *)
Definition move_set (n : nfa) (set : list nat) (label : rng) : res (list nat) :=
  foldM (fun ret s =>
    let* es := edge_iter n s in
    foldM (fun ret e =>
      match e_label e with
      | None => Ok ret
      | Some l =>
          if matches l (fst label) then
            if (snd label =? 0)%N then Panic PUnderflow
            else Ok (if matches l (snd label - 1)%N then set_insert (e_to e) ret else ret)
          else Ok ret
      end) es ret) set [].

(** The local variables of [build] (dfa.rs:163-170). *)
Record bstate := BState {
  b_first : list (option nat);
  b_marks : list bool;
  b_states : list (list nat);
  b_map : list (nat * list nat);
  b_edges : list dedge }.

(** dfa.rs:185-219: the body of the loop over the alphabet for the set at [t_idx]. *)
Definition build_label (n : nfa) (t_idx : nat) (st : bstate) (label : rng) : res bstate :=
  match nth_error (b_states st) t_idx with
  | None => Panic PIndex
  | Some t =>
      let* m := move_set n t label in
      let* u := dfa_epsilon_closure n m in
      match u with
      | [] => Ok st
      | _ =>
          let '(idx, marks, ds, dmap) :=
            match find_index (eqb u) (b_states st) with
            | Some i => (i, b_marks st, b_states st, b_map st)
            | None =>
                let new_idx := length (b_states st) in
                (new_idx, b_marks st ++ [false], b_states st ++ [u],
                 map_insert new_idx u (b_map st))
            end in
          match nth_error (b_first st) t_idx with
          | None => Panic PIndex
          | Some fe =>
              let first := match fe with
                           | None => update_nth t_idx (fun _ => Some (length (b_edges st))) (b_first st)
                           | Some _ => b_first st
                           end in
              Ok (BState first marks ds dmap (b_edges st ++ [DEdge t_idx label idx]))
          end
      end
  end.

(** dfa.rs:172-220: one iteration of the outer loop.  [marks] and [d_states] are always
    pushed together, so scanning [marks] is scanning [0..d_states.len()]. *)
Definition build_step (n : nfa) (alphabet : list rng) (st : bstate) : bstate + res bstate :=
  match find_index negb (b_marks st) with
  | None => inr (Ok st)
  | Some t_idx =>
      let st1 := BState (b_first st ++ [None]) (update_nth t_idx (fun _ => true) (b_marks st))
                        (b_states st) (b_map st) (b_edges st) in
      match foldM (build_label n t_idx) alphabet st1 with
      | Ok st2 => inl st2
      | Panic p => inr (Panic p)
      | Diverge => inr Diverge
      end
  end.

(** dfa.rs:163-236 [build].  At most one state set per subset of NFA states: the fuel is
    proved sufficient.  dfa.rs:165-167: the HashSet of start states only has one element, and
    its closure is put in a BTreeSet (dfa.rs:153-159), so iteration order does not matter. *)
Definition build (n : nfa) (alphabet : list rng) : res dfa :=
  let* c0 := nfa_epsilon_closure n [START_IDX] in
  let st0 := BState [] [false] [set_of_list c0] [] [] in
  match run (build_step n alphabet) (S (length (states n))) st0 with
  | inl _ => Diverge
  | inr (Panic p) => Panic p
  | inr Diverge => Diverge
  | inr (Ok st) =>
      let* firsts := mapM (fun i => match nth_error (b_first st) i with
                                    | Some f => Ok f | None => Panic PIndex end)
                          (seq 0 (length (b_states st))) in
      Ok (DFA (b_edges st) firsts (b_map st) (accepting_states n))
  end.

(** dfa.rs:92-100 [from_nfa]. *)
Definition from_nfa (n : nfa) : res dfa :=
  let* labels := nfa_labels n in
  let* alphabet := remove_overlap (set_of_list labels) in
  build n alphabet.

(** dfa.rs:132-143 [edge_iter] and 355-375 [EdgeIter]; [None] when the state has no edge. *)
Definition d_edge_iter (d : dfa) (s : nat) : res (option (list dedge)) :=
  match nth_error (d_first d) s with
  | None => Panic PIndex
  | Some None => Ok None
  | Some (Some k) => Ok (Some (take_while (fun e => de_from e =? s) (skipn k (d_edges d))))
  end.

(** dfa.rs:112-122: the loop over the characters; [(state_idx, eaten)].  A state without
    edges neither eats nor breaks. *)
Fixpoint sim_loop (d : dfa) (s : nat) (eaten : nat) (w : list N) : res (nat * nat) :=
  match w with
  | [] => Ok (s, eaten)
  | c :: w' =>
      let* es := d_edge_iter d s in
      match es with
      | None => sim_loop d s eaten w'
      | Some es => match find (fun e => matches (de_label e) c) es with
                   | Some e => sim_loop d (de_to e) (S eaten) w'
                   | None => Ok (s, eaten)
                   end
      end
  end.

(** dfa.rs:109-130 [simulate]. *)
Definition d_simulate (d : dfa) (w : list N) : res (option nat) :=
  let* (s, eaten) := sim_loop d 0 0 w in
  Ok (if map_mem s (dfa_to_nfa d) then Some eaten else None).

(** [char::len_utf8] / [str::len]. Used in dfa.rs:104 and support.rs:38. *)
Definition utf8_len1 (c : N) : nat :=
  if (c <? 128)%N then 1 else if (c <? 2048)%N then 2 else if (c <? 65536)%N then 3 else 4.
(** The same for strings, dfa.rs:104. *)
Definition utf8_len (s : list N) : nat := fold_right (fun c n => utf8_len1 c + n) 0 s.

(** dfa.rs:102-107 [test]. *)
Definition d_test (d : dfa) (w : list N) : res bool :=
  let* r := d_simulate d w in
  Ok match r with Some eaten => eaten =? utf8_len w | None => false end.

(** dfa.rs:46-58 [dfa_state_is_accepting]. *)
Definition dfa_state_is_accepting (d : dfa) (s : nat) : bool :=
  match map_get s (dfa_to_nfa d) with
  | Some set => existsb (fun x => set_mem x (d_accepting d)) set
  | None => false
  end.

(** dfa.rs:60-80 [accepting_states]: per DFA state, the accepting NFA states it contains, in
    ascending order; states with none are absent. *)
Definition d_accepting_states (d : dfa) : list (nat * list nat) :=
  fold_left (fun ret x =>
    fold_left (fun ret s => map_alter (fst x) (fun o => match o with None => [s] | Some v => v ++ [s] end) ret)
      (filter (fun s => set_mem s (d_accepting d)) (snd x)) ret)
    (dfa_to_nfa d) [].
