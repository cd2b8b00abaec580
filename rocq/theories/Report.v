(** Model of the error report of the parser, /repo/src/lalr.rs:95 and 147-154. *)
From Verif Require Import Base Grammar First Item Table Parse.

(** table.rs:41-43 [valid]: the keys of a row. *)
Definition tbl_valid {K V} `{Ord K} (t : table K V) (i : nat) : option (list K) :=
  option_map keys (map_get i t).

(** What the panic of lalr.rs:147-154 prints, the offending token and the keys of the row of the
    state, and the position printed before (lalr.rs:95).  Tokens are given by their indices; the
    code prints the token's text and the debug form of the symbols. *)
Record report := Report { rp_pos : nat; rp_token : nat; rp_valid : option (list nat) }.

(** One iteration of lalr.rs:90-155 with the local variables kept at the end. *)
Definition report_step (g : grammar) (t : tables) (tokens : list nat) (s : pstate)
  : pstate + option report :=
  match parse_step g t tokens s with
  | inl s' => inl s'
  | inr (Panic PInvalidToken) =>
      inr (match ps_stack s with
           | top :: _ => Some (Report (ps_i s) (ps_a s) (tbl_valid (t_action t) top))
           | [] => None
           end)
  | inr _ => inr None
  end.

(** lalr.rs:51-159: the report, if the run ends with one. *)
Definition parse_report (g : grammar) (t : tables) (tokens : list nat) : option report :=
  match tokens with
  | [] => None
  | a :: _ =>
      match run (report_step g t tokens) (parse_bits g tokens) (parse_init a) with
      | inl _ => None
      | inr r => r
      end
  end.
