(** Specification for C87: expressions with the texts of their terminals. *)
From Verif Require Import Base Grammar GrammarSpec IsoSpec MixSpec MixEvalSpec MixUseSpec.

(** An operator, the texts of its terminals and its operands. *)
Inductive texp := TOp (s i : nat) (f : form) (us : list (list N)) (es : list texp).
(** Without the texts. *)
Fixpoint bare (e : texp) : mexp := match e with TOp s i f _ es => MOp s i f (map bare es) end.

(** The terminals of an operator. *)
Definition toks (l : list slot) : list sym := flat_map (fun x => match x with Tok t => [t] | Arg _ _ => [] end) l.
(** Operands of the sorts the operators ask for, whatever their levels, and texts such as [Q] wants for the terminals. *)
Inductive well_spelt (M : mix) (Q : sym -> list N -> Prop) : nat -> texp -> Prop :=
| wt_op s i f us es : is_form M s i f -> Forall2 Q (toks (form_slots M s i f)) us ->
    Forall2 (fun h e => well_spelt M Q (fst h) e) (holes (form_slots M s i f)) es -> well_spelt M Q s (TOp s i f us es).

(** The texts in the order in which they are written. *)
Fixpoint tfill (l : list slot) (us : list (list N)) (ws : list (list (list N))) : list (list N) :=
  match l, us, ws with
  | Tok _ :: l, u :: us, _ => u :: tfill l us ws
  | Arg _ _ :: l, _, w :: ws => w ++ tfill l us ws
  | _, _, _ => []
  end.
Fixpoint texts (M : mix) (e : texp) : list (list N) :=
  match e with TOp s i f us es => tfill (form_slots M s i f) us (map (texts M) es) end.

(** The value: what the operator computes from the texts of its terminals and the values of its operands. *)
Fixpoint targs {V} (l : list slot) (us : list (list N)) (vs : list V) : list (arg V) :=
  match l, us, vs with
  | Tok _ :: l, u :: us, _ => AText u :: targs l us vs
  | Arg _ _ :: l, _, v :: vs => AVal v :: targs l us vs
  | _, _, _ => []
  end.
Fixpoint tvalue {V} (M : mix) (op : nat -> nat -> form -> list (arg V) -> V) (e : texp) : V :=
  match e with TOp s i f us es => op s i f (targs (form_slots M s i f) us (map (tvalue M op) es)) end.

(** Brackets of each sort with their texts. *)
Record bracket := Bracket { bk_form : form; bk_open : list N; bk_close : list N }.
Definition brackets_ok (M : mix) (Q : sym -> list N -> Prop) (br : nat -> bracket) : Prop :=
  forall s, s < mx_sorts M -> brackets M s (bk_form (br s)) /\
    Q (fm_first (bk_form (br s))) (bk_open (br s)) /\ forall t, In (PArg s t) (fm_more (bk_form (br s))) -> Q t (bk_close (br s)).
(** The second expression is the first with brackets added. *)
Inductive tadds (M : mix) (br : nat -> bracket) : texp -> texp -> Prop :=
| ta_op s i f us es es' : Forall2 (tadds M br) es es' -> tadds M br (TOp s i f us es) (TOp s i f us es')
| ta_br s i f us es e : tadds M br (TOp s i f us es) e ->
    tadds M br (TOp s i f us es) (TOp s (mx_top M s) (bk_form (br s)) [bk_open (br s); bk_close (br s)] [e]).
(** Brackets do not change the value. *)
Definition transparent {V} (M : mix) (op : nat -> nat -> form -> list (arg V) -> V) (br : nat -> bracket) : Prop :=
  forall s v, s < mx_sorts M -> op s (mx_top M s) (bk_form (br s)) [AText (bk_open (br s)); AVal v; AText (bk_close (br s))] = v.
