(** Specification for C91: expressions with lists, with the texts of their terminals. *)
From Verif Require Import Base Grammar GrammarSpec IsoSpec SeqSpec SeqEvalSpec.

(** What stands at one place of an operator: the texts of the separators and the operands (one operand and no separator, or a list). *)
Inductive texp := TOp (s i : nat) (f : form) (us : list (list N)) (ess : list (list (list N) * list texp)).
(** Without the texts. *)
Fixpoint bare (e : texp) : lexp := match e with TOp s i f _ ess => LOp s i f (map (fun x => map bare (snd x)) ess) end.

(** The terminals of an operator. *)
Definition toks (l : list slot) : list sym := flat_map (fun x => match x with Tok t => [t] | _ => [] end) l.
(** Operands of the sorts the operators ask for, whatever their levels, lists with at least one element and a separator between any two, and texts such
    as [Q] wants for the terminals. *)
Inductive well_spelt (M : lang) (Q : sym -> list N -> Prop) : nat -> texp -> Prop :=
| wt_op s i f us ess : is_form M s i f -> Forall2 Q (toks (form_slots M s i f)) us -> Forall2 (spelt_at M Q) (holes (form_slots M s i f)) ess -> well_spelt M Q s (TOp s i f us ess)
with spelt_at (M : lang) (Q : sym -> list N -> Prop) : hole -> list (list N) * list texp -> Prop :=
| sa_arg s i e : well_spelt M Q s e -> spelt_at M Q (HArg s i) ([], [e])
| sa_one n e : well_spelt M Q (ls_sort M n) e -> spelt_at M Q (HList n) ([], [e])
| sa_more n us es u e : spelt_at M Q (HList n) (us, es) -> Q (ls_sep M n) u -> well_spelt M Q (ls_sort M n) e -> spelt_at M Q (HList n) (us ++ [u], es ++ [e]).

(** The texts in the order in which they are written. *)
Fixpoint weave {A} (us : list A) (ws : list (list A)) : list A :=
  match us, ws with
  | u :: us, w :: ws => w ++ u :: weave us ws
  | _, _ => concat ws
  end.
Fixpoint tfill (l : list slot) (us : list (list N)) (ws : list (list (list N))) : list (list N) :=
  match l, us, ws with
  | Tok _ :: l, u :: us, _ => u :: tfill l us ws
  | Arg _ _ :: l, _, w :: ws | Lst _ :: l, _, w :: ws => w ++ tfill l us ws
  | _, _, _ => []
  end.
Fixpoint texts (M : lang) (e : texp) : list (list N) :=
  match e with TOp s i f us ess => tfill (form_slots M s i f) us (map (fun x => weave (fst x) (map (texts M) (snd x))) ess) end.

Section Value.
  Variable V : Type.
  Variable M : lang.
  Variable op : nat -> nat -> form -> list (arg V) -> V.
  Variable one : nat -> V -> V.
  Variable more : nat -> V -> list N -> V -> V.
  (** The value: what the operator computes from the texts of its terminals and the values of its operands; that of a list is computed from the first element on. *)
  Definition list_value (n : nat) (us : list (list N)) (vs : list V) : list V :=
    match vs with [] => [] | v :: vs => [fold_left (fun a x => more n a (fst x) (snd x)) (combine us vs) (one n v)] end.
  Fixpoint targs (l : list slot) (us : list (list N)) (vs : list (list (list N) * list V)) : list (arg V) :=
    match l, us, vs with
    | Tok _ :: l, u :: us, _ => AText u :: targs l us vs
    | Arg _ _ :: l, _, v :: vs => map AVal (snd v) ++ targs l us vs
    | Lst n :: l, _, v :: vs => map AVal (list_value n (fst v) (snd v)) ++ targs l us vs
    | _, _, _ => []
    end.
  Fixpoint tvalue (e : texp) : V :=
    match e with TOp s i f us ess => op s i f (targs (form_slots M s i f) us (map (fun x => (fst x, map tvalue (snd x))) ess)) end.
End Value.

(** Brackets of a sort: a terminal, any expression of the sort, a terminal; with their texts. *)
Definition brackets (M : lang) (s : nat) (f : form) : Prop :=
  is_form M s (lg_top M s) f /\ fm_l f = false /\ fm_r f = RNone /\ exists t, fm_more f = [PArg s t].
Record bracket := Bracket { bk_form : form; bk_open : list N; bk_close : list N }.
Definition brackets_ok (M : lang) (Q : sym -> list N -> Prop) (br : nat -> bracket) : Prop :=
  forall s, s < lg_sorts M -> brackets M s (bk_form (br s)) /\
    Q (fm_first (bk_form (br s))) (bk_open (br s)) /\ forall t, In (PArg s t) (fm_more (bk_form (br s))) -> Q t (bk_close (br s)).
(** The second expression is the first with brackets added. *)
Inductive tadds (M : lang) (br : nat -> bracket) : texp -> texp -> Prop :=
| ta_op s i f us ess ess' : Forall2 (fun x y => fst x = fst y /\ Forall2 (tadds M br) (snd x) (snd y)) ess ess' -> tadds M br (TOp s i f us ess) (TOp s i f us ess')
| ta_br s i f us ess e : tadds M br (TOp s i f us ess) e ->
    tadds M br (TOp s i f us ess) (TOp s (lg_top M s) (bk_form (br s)) [bk_open (br s); bk_close (br s)] [([], [e])]).
(** Brackets do not change the value. *)
Definition transparent {V} (M : lang) (op : nat -> nat -> form -> list (arg V) -> V) (br : nat -> bracket) : Prop :=
  forall s v, s < lg_sorts M -> op s (lg_top M s) (bk_form (br s)) [AText (bk_open (br s)); AVal v; AText (bk_close (br s))] = v.
