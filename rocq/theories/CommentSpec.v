(** Specification for C72: where a line of a file begins. *)
From Coq Require Import Ascii String.
From Verif Require Import Base Grammar Text GrammarFile GrammarFileSpec.
Local Open Scope list_scope.

(** A line begins after [before]. *)
Definition line_start (before : str) : Prop := before = [] \/ exists b, before = b ++ [10%N].
(** A line of comment, as in the example of README.md:22. *)
Definition comment (c : str) : str := tx "//" ++ c ++ [10%N].
(** The place between [before] and [after] is inside quotes. *)
Definition in_quotes (before after : str) : Prop :=
  exists b1 ts b2 a1 a2, before = b1 ++ 34%N :: b2 /\ after = a1 ++ 34%N :: a2 /\ Lay b1 ts /\ quotable (b2 ++ a1).
