(** Specification for C89: values of the expressions of [SeqSpec]. *)
From Verif Require Import Base Grammar GrammarSpec IsoSpec SeqSpec.

(** What an operator gets, in the order in which it is written: values of operands and of lists, and texts of terminals. *)
Inductive arg (V : Type) := AVal (v : V) | AText (w : list N).
Arguments AVal {V} v.
Arguments AText {V} w.
(** An argument for this part of an operator. *)
Definition arg_for {V} (x : slot) (a : arg V) : Prop :=
  match x, a with Tok _, AText _ | Arg _ _, AVal _ | Lst _, AVal _ => True | _, _ => False end.

Section Value.
  Variable V : Type.
  Variable M : lang.
  (** What the operators compute; the value of a list of one element, and that of a longer one from the list without its last
      element, the text of the separator and that element. *)
  Variable op : nat -> nat -> form -> list (arg V) -> V.
  Variable one : nat -> V -> V.
  Variable more : nat -> V -> list N -> V -> V.
  Notation texts := (list (list N)).

  (** The value of an expression whose tokens have these texts, and the texts left over. *)
  Fixpoint elems (n : nat) (a : V) (fs : list (texts -> V * texts)) (ws : texts) : V * texts :=
    match fs, ws with
    | f :: fs, w :: ws => let (v, ws) := f ws in elems n (more n a w v) fs ws
    | _, _ => (a, ws)
    end.
  Fixpoint args (l : list slot) (fss : list (list (texts -> V * texts))) (ws : texts) : list (arg V) * texts :=
    match l, fss, ws with
    | Tok _ :: l, _, w :: ws => let (xs, r) := args l fss ws in (AText w :: xs, r)
    | Arg _ _ :: l, (f :: _) :: fss, _ => let (v, ws) := f ws in let (xs, r) := args l fss ws in (AVal v :: xs, r)
    | Lst n :: l, (f :: fs) :: fss, _ =>
        let (v, ws) := f ws in let (v, ws) := elems n (one n v) fs ws in let (xs, r) := args l fss ws in (AVal v :: xs, r)
    | _, _, _ => ([], ws)
    end.
  Fixpoint leval (e : lexp) (ws : texts) : V * texts :=
    match e with LOp s i f ess => let (xs, r) := args (form_slots M s i f) (map (map leval) ess) ws in (op s i f xs, r) end.
End Value.

(** The number of rules used for an expression of level [i]: one for each operator, one for each level that an operand
    is above the one it needs, and one for each element of a list. *)
Definition hole_rules (h : hole) (fs : list (nat -> nat)) : nat :=
  match h with HArg _ i => list_sum (map (fun f => f i) fs) | HList _ => list_sum (map (fun f => S (f 0)) fs) end.
Fixpoint lrules_used (M : lang) (e : lexp) (i : nat) : nat :=
  match e with LOp s j f ess => S (j - i) + list_sum (map (fun x => hole_rules (fst x) (snd x)) (combine (holes (form_slots M s j f)) (map (map (lrules_used M)) ess))) end.
