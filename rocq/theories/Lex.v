(** Model of /repo/src/lex/lex.rs (lexer construction and the lexing loop) and of the NFA
    helpers it uses, /repo/src/lex/nfa.rs:367-407. *)
From Verif Require Import Base Regex Nfa Dfa.

(** lex.rs:11-16 [TokenDef]. *)
Record token_def := TokenDef { td_name : list N; td_with_val : bool; td_idx : option nat }.
(** lex.rs:27-31 [Token]. *)
Record token := Token { tk_name : list N; tk_val : option (list N) }.

(** lex.rs:46-52 [Lex]. *)
Record lexer := Lexer {
  lx_dfa : dfa;
  lx_tokens : list (nat * token_def);
  lx_accepting : list (nat * list nat) }.

(** nfa.rs:367-393 [lex_nfa_template]; only the state counts of the argument matter (the edge
    counts are a capacity hint). *)
Fixpoint lex_template_loop (this : nfa) (state_offset : nat) (lens : list nat) : res nfa :=
  match lens with
  | [] => Ok this
  | len :: lens' =>
      let* this' := push_edge this START_IDX None (START_IDX + state_offset) in
      lex_template_loop this' (state_offset + len) lens'
  end.
(** nfa.rs:367-393 [lex_nfa_template]. *)
Definition lex_nfa_template (lens : list nat) : res nfa :=
  lex_template_loop (NFA [] [State None false]) 1 lens.

(** nfa.rs:395-407 [shift_state_and_edges]. *)
Definition shift_nfa (n : nfa) (so eo : nat) : nfa :=
  NFA (map (fun e => Edge (e_from e + so) (e_label e) (e_to e + so)) (edges n))
      (map (fun s => State (option_map (fun k => k + eo) (first_edge s)) (is_accept s)) (states n)).

(** lex.rs:83-95: record each token under its shifted accepting states and shift its NFA. *)
Fixpoint from_tokens_loop (so eo : nat) (l : list (token_def * nfa)) (tmap : list (nat * token_def))
  : list nfa * list (nat * token_def) :=
  match l with
  | [] => ([], tmap)
  | (tok, n) :: l' =>
      let tmap' := fold_left (fun m a => map_insert (a + so) tok m) (accepting_states n) tmap in
      let n' := shift_nfa n so eo in
      let (ns, tm) := from_tokens_loop (so + length (states n')) (eo + length (edges n')) l' tmap' in
      (n' :: ns, tm)
  end.

(** lex.rs:97-104: append the shifted NFAs to the template. *)
Definition append_nfas (t : nfa) (ns : list nfa) : nfa :=
  fold_left (fun t n => NFA (edges t ++ edges n) (states t ++ states n)) ns t.

(** lex.rs:70-104 [from_tokens], up to the combined NFA. *)
Definition lex_nfa (tokens : list (token_def * hir)) : res (nfa * list (nat * token_def)) :=
  let* with_nfa := mapM (fun t => let* n := from_regex (snd t) in Ok (fst t, n)) tokens in
  let* tmpl := lex_nfa_template (map (fun t => length (states (snd t))) with_nfa) in
  let (ns, tmap) := from_tokens_loop 1 (length with_nfa) with_nfa [] in
  Ok (append_nfas tmpl ns, tmap).

(** lex.rs:116-123 [new]. *)
Definition lexer_new (tokens : list (nat * token_def)) (d : dfa) : lexer :=
  Lexer d tokens (d_accepting_states d).

(** lex.rs:70-114 [from_tokens]. *)
Definition from_tokens (tokens : list (token_def * hir)) : res lexer :=
  let* (n, tmap) := lex_nfa tokens in
  let* d := from_nfa n in
  Ok (lexer_new tmap d).

(** lex.rs:150-155 [is_whitespace]. *)
Definition is_whitespace (c : N) : bool := (c =? 10)%N || (c =? 32)%N.

(** Byte offset [k] as a split point of a string, if it is a character boundary. For lex.rs:224-250. *)
Fixpoint split_byte (s : list N) (k : nat) : option (list N * list N) :=
  match k with
  | O => Some ([], s)
  | _ => match s with
         | [] => None
         | c :: s' => if utf8_len1 c <=? k then
                        match split_byte s' (k - utf8_len1 c) with
                        | Some (a, b) => Some (c :: a, b)
                        | None => None
                        end
                      else None
         end
  end.

(** [&s[a..b]]: byte offsets; panics unless both are in range, ordered and on boundaries. For lex.rs:224-250. *)
Definition byte_slice (s : list N) (a b : nat) : res (list N) :=
  if b <? a then Panic PSlice
  else match split_byte s a with
       | None => Panic PSlice
       | Some (_, r) => match split_byte r (b - a) with
                        | None => Panic PSlice
                        | Some (x, _) => Ok x
                        end
       end.

(** lex.rs:224-250 [make_tok]. *)
Definition make_tok (L : lexer) (input : list N) (start end_ : nat) (st : nat) : res token :=
  match map_get st (lx_tokens L) with
  | Some td =>
      if td_with_val td then
        let* v := byte_slice input start (end_ + 1) in Ok (Token (td_name td) (Some v))
      else Ok (Token (td_name td) None)
  | None => Panic PNoToken
  end.

(** The local variables of [lex] (lex.rs:158-165). *)
Record lstate := LState {
  ls_tokens : list token;
  ls_state : nat;
  ls_begin : nat;
  ls_forward : nat;
  ls_last : option (nat * nat) }.

(** lex.rs:167-209: one iteration of the loop, and the final flush (lex.rs:211-219) when the
    loop ends. *)
Definition lex_finish (L : lexer) (input : list N) (s : lstate) : res (list token) :=
  match ls_last s with
  | Some (k, a) => let* t := make_tok L input (ls_begin s) k a in Ok (ls_tokens s ++ [t])
  | None => Ok (ls_tokens s)
  end.

(** lex.rs:167-209: one iteration of the loop of [lex]. *)
Definition lex_step (L : lexer) (input : list N) (s : lstate) : lstate + res (list token) :=
  match nth_error input (ls_forward s) with
  | None => inr (lex_finish L input s)
  | Some c =>
      match d_edge_iter (lx_dfa L) (ls_state s) with
      | Panic p => inr (Panic p)
      | Diverge => inr Diverge
      | Ok oes =>
          let matching := match oes with
                          | Some es => find (fun e => matches (de_label e) c) es
                          | None => None
                          end in
          match matching with
          | Some e =>
              match map_get (de_to e) (lx_accepting L) with
              | Some [] => inr (Panic PUnwrapNone)
              | Some (a :: _) =>
                  inl (LState (ls_tokens s) (de_to e) (ls_begin s) (S (ls_forward s))
                              (Some (ls_forward s, a)))
              | None =>
                  inl (LState (ls_tokens s) (de_to e) (ls_begin s) (S (ls_forward s)) (ls_last s))
              end
          | None =>
              match ls_last s with
              | Some (k, a) =>
                  match make_tok L input (ls_begin s) k a with
                  | Ok t => inl (LState (ls_tokens s ++ [t]) 0 (k + 1) (k + 1) None)
                  | Panic p => inr (Panic p)
                  | Diverge => inr Diverge
                  end
              | None =>
                  if is_whitespace c && (ls_forward s =? ls_begin s) then
                    inl (LState (ls_tokens s) (ls_state s) (S (ls_begin s)) (S (ls_forward s)) None)
                  else inr (lex_finish L input s)
              end
          end
      end
  end.

(** lex.rs:157-222 [lex].  At most quadratically many iterations; the fuel is proved
    sufficient. *)
Definition lex (L : lexer) (input : list N) : res (list token) :=
  match run (lex_step L input) (2 * N.size_nat (N.of_nat (S (length input))))
            (LState [] 0 0 0 None) with
  | inl _ => Diverge
  | inr r => r
  end.
