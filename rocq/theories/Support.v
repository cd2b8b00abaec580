(** Model of /repo/src/parser/support.rs and of the orders in /repo/src/parser/ast.rs:107-137.
    Strings are lists of characters; [bumpalo] allocation is not modelled. *)
From Verif Require Import Base Regex Nfa Dfa Lex Grammar.

(** support.rs:14-16 [alloc_str]. *)
Definition alloc_str (s : str) : str := s.

(** [s.len()]: the number of bytes. support.rs:38. *)
Definition byte_len (s : str) : nat := utf8_len s.

(** [s.chars().skip(1).take(s.chars().count() - 2)]: the subtraction is checked. support.rs:18-46. *)
Definition strip (s : str) : res str :=
  if length s <? 2 then Panic PUnderflow else Ok (firstn (length s - 2) (skipn 1 s)).

(** support.rs:18-25 [alloc_quoted_str]. *)
Definition alloc_quoted_str (s : str) : res str := strip s.
(** support.rs:27-35 [alloc_ts_code]. *)
Definition alloc_ts_code (s : str) : res str := strip s.
(** support.rs:37-49 [alloc_regex]. *)
Definition alloc_regex (s : str) : res str := if byte_len s <? 3 then Ok [] else strip s.

(** ast.rs:107-116 [precedence]. *)
Definition precedence (x : isym) : nat :=
  match x with IEps => 0 | IStr _ => 1 | INamed _ _ => 2 | INon _ => 4 | IReg _ => 5 | IEof => 6 end.

(** ast.rs:118-137 [compare], the [Ord] of [InputSymbol]. *)
Fixpoint isym_compare (x y : isym) {struct x} : comparison :=
  match x, y with
  | IEps, _ => Lt
  | IStr a, IStr b => cmp a b
  | IReg a, IReg b => cmp a b
  | INamed n ty, INamed n' ty' =>
      match isym_compare ty ty' with
      | Eq => match n, n' with Some a, Some b => cmp a b | Some _, None => Gt | None, Some _ => Lt | None, None => Lt end
      | c => c
      end
  | _, _ => Nat.compare (precedence x) (precedence y)
  end.
