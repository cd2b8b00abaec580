(** Model of /repo/src/option_usize.rs: an [Option<usize>] packed in one machine word, with
    [usize::MAX] as the "none" sentinel. *)
From Verif Require Import Base.
Local Open Scope N_scope.

(** 64-bit [usize::MAX]. option_usize.rs:7 and 29. *)
Definition usize_max : N := 2 ^ 64 - 1.
(** A value the word can hold. option_usize.rs:2. *)
Definition is_usize (v : N) : Prop := v <= usize_max.

(** option_usize.rs:1-2: the wrapped word. *)
Record ousize := OU { ou_word : N }.

(** option_usize.rs:23-26 [some]. *)
Definition ou_some (v : N) : ousize := OU v.
(** option_usize.rs:28-31 [none]. *)
Definition ou_none : ousize := OU usize_max.
(** option_usize.rs:33-36 [is_none]. *)
Definition ou_is_none (o : ousize) : bool := ou_word o =? usize_max.
(** option_usize.rs:38-41 [is_some]. *)
Definition ou_is_some (o : ousize) : bool := negb (ou_word o =? usize_max).
(** option_usize.rs:5-11 [unwrap]. *)
Definition ou_unwrap (o : ousize) : res N :=
  if ou_word o =? usize_max then Panic PUnwrapNone else Ok (ou_word o).
(** option_usize.rs:13-20 [unwrap_or]. *)
Definition ou_unwrap_or (o : ousize) (d : N) : N :=
  if ou_word o =? usize_max then d else ou_word o.
(** option_usize.rs:43-49 [map]. *)
Definition ou_map {A} (o : ousize) (f : N -> option A) : option A :=
  if ou_word o =? usize_max then None else f (ou_word o).

(** The abstract value of a packed option (specification). For option_usize.rs:1-55. *)
Definition ou_abs (o : ousize) : option N :=
  if ou_word o =? usize_max then None else Some (ou_word o).

Lemma ou_abs_none : ou_abs ou_none = None.
Proof. reflexivity. Qed.

Lemma ou_abs_some v : v < usize_max -> ou_abs (ou_some v) = Some v.
Proof.
  intros Hv. unfold ou_abs; simpl. destruct (N.eqb_spec v usize_max); [lia|reflexivity].
Qed.

(** Every word is the image of exactly one abstract value. *)
Lemma ou_abs_inj o1 o2 : ou_abs o1 = ou_abs o2 -> o1 = o2.
Proof.
  destruct o1 as [a], o2 as [b]; unfold ou_abs; simpl.
  destruct (N.eqb_spec a usize_max), (N.eqb_spec b usize_max); congruence.
Qed.

Lemma ou_ops_agree o :
  ou_is_none o = match ou_abs o with None => true | _ => false end /\
  ou_is_some o = match ou_abs o with None => false | _ => true end /\
  ou_unwrap o = match ou_abs o with None => Panic PUnwrapNone | Some v => Ok v end /\
  (forall d, ou_unwrap_or o d = match ou_abs o with None => d | Some v => v end) /\
  (forall A (f : N -> option A),
      ou_map o f = match ou_abs o with None => None | Some v => f v end).
Proof.
  unfold ou_is_none, ou_is_some, ou_unwrap, ou_unwrap_or, ou_map, ou_abs.
  destruct (ou_word o =? usize_max); repeat split; reflexivity.
Qed.

(** The one value that cannot be stored: [some(usize::MAX)] is [none]. *)
Lemma ou_some_max_is_none : ou_abs (ou_some usize_max) = None.
Proof. reflexivity. Qed.
