(** Specification of error reports: which tokens can come next. *)
From Verif Require Import Base Grammar GrammarSpec ParseSpec.

(** [u] can be continued to a sentence. *)
Definition viable_prefix (g : grammar) (start : str) (u : list nat) : Prop :=
  exists v, sentence g start (u ++ v).

(** Token [k] can come after [u]; EOF (index 0) can when [u] is a sentence. *)
Definition can_follow (g : grammar) (start : str) (u : list nat) (k : nat) : Prop :=
  if k =? 0 then sentence g start u else viable_prefix g start (u ++ [k]).

(** Every symbol used in a body derives some sequence of terminals. *)
Definition all_productive (g : grammar) : Prop :=
  forall p x, In p (g_prods g) -> In x (p_syms p) -> exists l, terminals l /\ derives g [x] l.
