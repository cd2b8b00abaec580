(** Model of the LR driver, /repo/src/lalr.rs:51-159. *)
From Verif Require Import Base Grammar First Item Table.

(** The local variables of [parse_impl] (lalr.rs:53-59): the state stack (top first), the
    position, the index of the current token.  [ps_trace] lists the productions reduced so far,
    which the code prints (lalr.rs:120).  The token stack and the current token's text are only
    printed, and dropped here. *)
Record pstate := PState { ps_stack : list nat; ps_i : nat; ps_a : nat; ps_trace : list nat }.

(** lalr.rs:62-73 [next_token]: past the end, the last token stays current. *)
Definition next_token (tokens : list nat) (i a : nat) : nat * nat :=
  (S i, match nth_error tokens (S i) with Some a' => a' | None => a end).

(** lalr.rs:90-155: one iteration.  The tokens are given by their indices. *)
Definition parse_step (g : grammar) (t : tables) (tokens : list nat) (s : pstate)
  : pstate + res (list nat) :=
  match ps_stack s with
  | [] => inr (Panic PStackEmpty)
  | top :: _ =>
      match tbl_get (t_action t) top (ps_a s) with
      | Some (Shift q) =>
          let '(i', a') := next_token tokens (ps_i s) (ps_a s) in
          inl (PState (q :: ps_stack s) i' a' (ps_trace s))
      | Some (Reduce p) =>
          match get_production g p with
          | None => inr (Panic PNoProduction)
          | Some pr =>
              if length (ps_stack s) <? length (p_syms pr) then inr (Panic PUnderflow)
              else
                let st := skipn (length (p_syms pr)) (ps_stack s) in
                match st with
                | [] => inr (Panic PStackEmpty)
                | top' :: _ =>
                    match tbl_get (t_goto t) top' (p_name pr) with
                    | None => inr (Panic PGotoEmpty)
                    | Some q => inl (PState (q :: st) (ps_i s) (ps_a s) (ps_trace s ++ [p]))
                    end
                end
          end
      | Some Accept => inr (Ok (ps_trace s))
      | None => inr (Panic PInvalidToken)
      end
  end.

(** Fuel: for grammars without empty bodies it is proved that a longer run never ends. Not in the code; lalr.rs:89-155 loops without a limit. *)
Definition parse_bits (g : grammar) (tokens : list nat) : nat :=
  N.size_nat ((2 * N.of_nat (length tokens) + 2) * (N.of_nat (length (g_prods g)) + 2)).

(** lalr.rs:51-159 [parse_impl]; on acceptance the sequence of reductions (the code returns an
    empty string and prints them). *)
Definition parse_init (a : nat) : pstate := PState [0] 0 a [].
(** lalr.rs:51-159 [parse_impl]. *)
Definition parse_impl (g : grammar) (t : tables) (tokens : list nat) : res (list nat) :=
  match tokens with
  | [] => Panic PIndex
  | a :: _ =>
      match run (parse_step g t tokens) (parse_bits g tokens) (parse_init a) with
      | inl _ => Diverge
      | inr r => r
      end
  end.
