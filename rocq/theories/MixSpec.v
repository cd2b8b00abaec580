(** Specification for C84: grammars of operators with several parts (mixfix operators), and the expressions. *)
From Verif Require Import Base Grammar GrammarSpec IsoSpec.

(** What stands between the operands on the sides of an operator: a terminal, then more terminals, some with an operand of
    any sort before them. *)
Inductive piece := PTok (t : sym) | PArg (s : nat) (t : sym).
(** An operator, and whether it has an operand on the left and one on the right.  With neither it is
    closed (an atom, brackets, a call), with one it is a postfix or prefix operator. *)
Record form := Form { fm_l : bool; fm_first : sym; fm_more : list piece; fm_r : bool }.
(** There are several sorts of expressions, each with its levels.  Level 0 binds loosest.  The operators of a
    level associate all to the left or all to the right. *)
Record mix := Mix { mx_sorts : nat; mx_name : nat -> nat -> str; mx_top : nat -> nat; mx_left : nat -> nat -> bool; mx_forms : nat -> nat -> list form }.

Definition is_form (M : mix) (s i : nat) (f : form) : Prop := s < mx_sorts M /\ i <= mx_top M s /\ In f (mx_forms M s i).
(** The levels of the operands on the sides: the operator's own on the side to which it associates. *)
Definition lo (M : mix) (s i : nat) : nat := if mx_left M s i then i else S i.
Definition ro (M : mix) (s i : nat) : nat := if mx_left M s i then S i else i.

(** The parts of an operator, as they are written. *)
Inductive slot := Tok (t : sym) | Arg (s i : nat).
Definition piece_slots (p : piece) : list slot := match p with PTok t => [Tok t] | PArg s t => [Arg s 0; Tok t] end.
Definition form_slots (M : mix) (s i : nat) (f : form) : list slot :=
  (if fm_l f then [Arg s (lo M s i)] else []) ++ Tok (fm_first f) :: flat_map piece_slots (fm_more f) ++ (if fm_r f then [Arg s (ro M s i)] else []).
Definition slot_sym (M : mix) (x : slot) : sym := match x with Tok t => t | Arg s i => SNon (mx_name M s i) end.

(** The rules: one for each operator, and an expression of a level is also one of the level below. *)
Inductive mrule (M : mix) : str -> list sym -> Prop :=
| mr_pass s i : s < mx_sorts M -> i < mx_top M s -> mrule M (mx_name M s i) [SNon (mx_name M s (S i))]
| mr_form s i f : is_form M s i f -> mrule M (mx_name M s i) (map (slot_sym M) (form_slots M s i f)).

Record mix_ok (M : mix) : Prop := {
  mk_sort : 0 < mx_sorts M;
  (** different sorts and levels have different names; no sort is empty *)
  mk_names : forall s i s' i', s < mx_sorts M -> i <= mx_top M s -> s' < mx_sorts M -> i' <= mx_top M s' -> mx_name M s i = mx_name M s' i' -> s = s' /\ i = i';
  mk_some : forall s, s < mx_sorts M -> mx_forms M s (mx_top M s) <> [];
  (** the operands exist, the other parts are terminals *)
  mk_slots : forall s i f, is_form M s i f -> forall x, In x (form_slots M s i f) ->
    match x with Tok t => terminal t | Arg s' i' => s' < mx_sorts M /\ i' <= mx_top M s' end;
  (** in one sort, operators that begin with an operand have different first terminals, and so have those that do not *)
  mk_first : forall s i j f f', is_form M s i f -> is_form M s j f' -> fm_l f = fm_l f' -> fm_first f = fm_first f' -> i = j /\ f = f';
  (** what ends an operand inside an operator cannot continue it *)
  mk_apart : forall s i f s' j f' t, is_form M s i f -> fm_l f = true -> is_form M s' j f' -> In (PArg s t) (fm_more f') -> fm_first f <> t }.

(** A grammar with exactly these rules, each once, in any order. *)
Definition mixfix (M : mix) (ast : list aprod) : Prop :=
  (forall A b, In (A, b) (ast_rules ast) <-> mrule M A b) /\ NoDup (ast_rules ast) /\
  (exists st, find ap_start ast = Some st /\ ap_name st = mx_name M 0 0) /\ mix_ok M.

(** Expressions: an operator, of a sort and level, and its operands. *)
Inductive mexp := MOp (s i : nat) (f : form) (es : list mexp).

(** How an expression is written. *)
Fixpoint fill (l : list slot) (ws : list (list sym)) : list sym :=
  match l, ws with
  | Tok t :: l, _ => t :: fill l ws
  | Arg _ _ :: l, w :: ws => w ++ fill l ws
  | _, _ => []
  end.
Fixpoint mwritten (M : mix) (e : mexp) : list sym :=
  match e with MOp s i f es => fill (form_slots M s i f) (map (mwritten M) es) end.

(** An expression of a sort whose operator has level [i] or above, and whose operands are as the operator asks. *)
Definition holes (l : list slot) : list (nat * nat) := flat_map (fun x => match x with Tok _ => [] | Arg s i => [(s, i)] end) l.
Inductive mproper (M : mix) : nat -> nat -> mexp -> Prop :=
| mp_op s i j f es : i <= j -> is_form M s j f -> Forall2 (fun h e => mproper M (fst h) (snd h) e) (holes (form_slots M s j f)) es ->
    mproper M s i (MOp s j f es).

(** The expression of a parse tree: a node of the rule of an operator stands for the operator with what the
    children that are nodes stand for; a node of any other rule stands for what its child does. *)
Definition nodes (ts : list tree) : list tree := flat_map (fun t => match t with Leaf _ => [] | Node _ _ => [t] end) ts.
Inductive mmeans (g : grammar) (M : mix) : tree -> mexp -> Prop :=
| mm_pass p pr A t e : nth_error (g_prods g) p = Some pr -> p_syms pr = [SNon A] -> mmeans g M t e -> mmeans g M (Node p [t]) e
| mm_op p pr s i f ts es : nth_error (g_prods g) p = Some pr -> is_form M s i f -> p_name pr = mx_name M s i -> p_syms pr = map (slot_sym M) (form_slots M s i f) ->
    Forall2 (mmeans g M) (nodes ts) es -> mmeans g M (Node p ts) (MOp s i f es).
