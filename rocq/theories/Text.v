(** Text literals and Rust's [Display] of unsigned integers, as lists of characters. *)
From Coq Require Import Ascii Decimal DecimalN.
From Coq Require String.
From Verif Require Import Base.

(** A string literal of the Rust source. As those of lex_gen.rs and parse_gen.rs. *)
Definition tx (s : String.string) : list N := map N_of_ascii (String.list_ascii_of_string s).

(** [format!("{}", n)]: decimal digits, without leading zeros. As in lex_gen.rs:82-175. *)
Fixpoint digits (u : uint) : list N :=
  match u with
  | Nil => []
  | D0 u => 48%N :: digits u | D1 u => 49%N :: digits u | D2 u => 50%N :: digits u | D3 u => 51%N :: digits u
  | D4 u => 52%N :: digits u | D5 u => 53%N :: digits u | D6 u => 54%N :: digits u | D7 u => 55%N :: digits u
  | D8 u => 56%N :: digits u | D9 u => 57%N :: digits u
  end.
(** [format!] of a [u32], as in lex_gen.rs:112-137. *)
Definition dec (n : N) : list N := digits (N.to_uint n).
(** [format!] of a [usize], as in parse_gen.rs:213-296. *)
Definition decn (n : nat) : list N := dec (N.of_nat n).

(** [l.join(sep)]. As in lex_gen.rs:136-162. *)
Fixpoint join (sep : list N) (l : list (list N)) : list N :=
  match l with [] => [] | [x] => x | x :: l => x ++ sep ++ join sep l end.
