(** The UTF-8 encoding of texts, and where a text may be cut. *)
From Verif Require Import Base.
Local Open Scope N_scope.

(** The bytes of a character. *)
Definition utf8 (c : N) : list N :=
  if c <? 128 then [c]
  else if c <? 2048 then [192 + c / 64; 128 + c mod 64]
  else if c <? 65536 then [224 + c / 4096; 128 + c / 64 mod 64; 128 + c mod 64]
  else [240 + c / 262144; 128 + c / 4096 mod 64; 128 + c / 64 mod 64; 128 + c mod 64].
Definition bytes (s : list N) : list N := flat_map utf8 s.

(** Byte [k] is the first of a character, or the end of the text. *)
Definition boundary (s : list N) (k : nat) : Prop :=
  k = length (bytes s) \/ exists b, nth_error (bytes s) k = Some b /\ ~ (128 <= b < 192).

(** The text [v] has the bytes from [p] up to [q]. *)
Definition cut (s : list N) (p q : nat) (v : list N) : Prop :=
  bytes v = firstn (q - p) (skipn p (bytes s)).

(** Every token (position and length in characters) can be cut out at the same number of bytes. *)
Definition sliced (s : list N) (ts : list (nat * list N)) : Prop :=
  forall p u, In (p, u) ts -> boundary s p /\ boundary s (p + length u).
