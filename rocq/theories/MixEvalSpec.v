(** Specification for C85: values of the expressions of [MixSpec]. *)
From Verif Require Import Base Grammar GrammarSpec IsoSpec MixSpec.

(** What an operator gets, in the order in which it is written: values of operands and texts of terminals. *)
Inductive arg (V : Type) := AVal (v : V) | AText (w : list N).
Arguments AVal {V} v.
Arguments AText {V} w.
(** An argument for this part of an operator. *)
Definition arg_for {V} (x : slot) (a : arg V) : Prop :=
  match x, a with Tok _, AText _ | Arg _ _, AVal _ => True | _, _ => False end.

Section Value.
  Variable V : Type.
  Variable M : mix.
  (** What the operators compute. *)
  Variable op : nat -> nat -> form -> list (arg V) -> V.

  (** The value of an expression whose tokens have these texts, and the texts left over. *)
  Fixpoint args (l : list slot) (fs : list (list (list N) -> V * list (list N))) (ws : list (list N)) : list (arg V) * list (list N) :=
    match l, fs, ws with
    | Tok _ :: l, _, w :: ws => let (xs, r) := args l fs ws in (AText w :: xs, r)
    | Arg _ _ :: l, f :: fs, _ => let (v, ws) := f ws in let (xs, r) := args l fs ws in (AVal v :: xs, r)
    | _, _, _ => ([], ws)
    end.
  Fixpoint meval (e : mexp) (ws : list (list N)) : V * list (list N) :=
    match e with MOp s i f es => let (xs, r) := args (form_slots M s i f) (map meval es) ws in (op s i f xs, r) end.
End Value.

(** The number of rules used for an expression of level [i]: one for each operator, and one for each level that an operand
    is above the one it needs. *)
Fixpoint rules_used (M : mix) (e : mexp) (i : nat) : nat :=
  match e with MOp s j f es => S (j - i) + list_sum (map (fun x => fst x (snd (snd x))) (combine (map (rules_used M) es) (holes (form_slots M s j f)))) end.
