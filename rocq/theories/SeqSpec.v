(** Specification for C88: grammars of operators (as in MixSpec) some of whose operands are lists of expressions with separators between them. *)
From Verif Require Import Base Grammar GrammarSpec IsoSpec.

(** What stands between the operands on the sides of an operator: a terminal, then more terminals, some with an operand of
    any sort before them; or a list and the terminal that ends it. *)
Inductive piece := PTok (t : sym) | PArg (s : nat) (t : sym) | PList (n : nat).
(** What stands on the right: nothing, an operand of the operator's own sort, or any expression of another sort. *)
Inductive rside := RNone | RSame | ROther (s : nat).
(** An operator, whether it has an operand on the left, and what it has on the right. *)
Record form := Form { fm_l : bool; fm_first : sym; fm_more : list piece; fm_r : rside }.
(** There are several sorts of expressions, each with its levels.  Level 0 binds loosest.  The operators of a
    level associate all to the left or all to the right.  There are several kinds of lists, each with a name, the sort of its
    elements, a separator, and the terminal that ends it, wherever it is used. *)
Record lang := Lang { lg_sorts : nat; lg_name : nat -> nat -> str; lg_top : nat -> nat; lg_left : nat -> nat -> bool; lg_forms : nat -> nat -> list form;
  ls_count : nat; ls_name : nat -> str; ls_sort : nat -> nat; ls_sep : nat -> sym; ls_end : nat -> sym }.

Definition is_form (M : lang) (s i : nat) (f : form) : Prop := s < lg_sorts M /\ i <= lg_top M s /\ In f (lg_forms M s i).
(** The levels of the operands on the sides: the operator's own on the side to which it associates. *)
Definition lo (M : lang) (s i : nat) : nat := if lg_left M s i then i else S i.
Definition ro (M : lang) (s i : nat) : nat := if lg_left M s i then S i else i.

(** The parts of an operator, as they are written. *)
Inductive slot := Tok (t : sym) | Arg (s i : nat) | Lst (n : nat).
Definition piece_slots (M : lang) (p : piece) : list slot := match p with PTok t => [Tok t] | PArg s t => [Arg s 0; Tok t] | PList n => [Lst n; Tok (ls_end M n)] end.
Definition right_slots (M : lang) (s i : nat) (r : rside) : list slot := match r with RNone => [] | RSame => [Arg s (ro M s i)] | ROther s' => [Arg s' 0] end.
Definition form_slots (M : lang) (s i : nat) (f : form) : list slot :=
  (if fm_l f then [Arg s (lo M s i)] else []) ++ Tok (fm_first f) :: flat_map (piece_slots M) (fm_more f) ++ right_slots M s i (fm_r f).
Definition slot_sym (M : lang) (x : slot) : sym := match x with Tok t => t | Arg s i => SNon (lg_name M s i) | Lst n => SNon (ls_name M n) end.

(** The rules: one for each operator, an expression of a level is also one of the level below, and two for each kind of list. *)
Inductive lrule (M : lang) : str -> list sym -> Prop :=
| lr_pass s i : s < lg_sorts M -> i < lg_top M s -> lrule M (lg_name M s i) [SNon (lg_name M s (S i))]
| lr_form s i f : is_form M s i f -> lrule M (lg_name M s i) (map (slot_sym M) (form_slots M s i f))
| lr_one n : n < ls_count M -> lrule M (ls_name M n) [SNon (lg_name M (ls_sort M n) 0)]
| lr_more n : n < ls_count M -> lrule M (ls_name M n) [SNon (ls_name M n); ls_sep M n; SNon (lg_name M (ls_sort M n) 0)].

Record lang_ok (M : lang) : Prop := {
  mk_sort : 0 < lg_sorts M;
  (** different sorts, levels and lists have different names; no sort is empty *)
  mk_names : forall s i s' i', s < lg_sorts M -> i <= lg_top M s -> s' < lg_sorts M -> i' <= lg_top M s' -> lg_name M s i = lg_name M s' i' -> s = s' /\ i = i';
  mk_lists : forall n n', n < ls_count M -> n' < ls_count M -> ls_name M n = ls_name M n' -> n = n';
  mk_other : forall n s i, n < ls_count M -> s < lg_sorts M -> i <= lg_top M s -> ls_name M n <> lg_name M s i;
  mk_some : forall s, s < lg_sorts M -> lg_forms M s (lg_top M s) <> [];
  (** the operands exist, the other parts are terminals *)
  mk_slots : forall s i f, is_form M s i f -> forall x, In x (form_slots M s i f) ->
    match x with Tok t => terminal t | Arg s' i' => s' < lg_sorts M /\ i' <= lg_top M s' | Lst n => n < ls_count M end;
  mk_list : forall n, n < ls_count M -> ls_sort M n < lg_sorts M /\ terminal (ls_sep M n) /\ terminal (ls_end M n) /\ ls_sep M n <> ls_end M n;
  (** in one sort, operators that begin with an operand have different first terminals, and so have those that do not *)
  mk_first : forall s i j f f', is_form M s i f -> is_form M s j f' -> fm_l f = fm_l f' -> fm_first f = fm_first f' -> i = j /\ f = f';
  (** what ends an operand inside an operator cannot continue it *)
  mk_apart : forall s i f s' j f' t, is_form M s i f -> fm_l f = true -> is_form M s' j f' -> In (PArg s t) (fm_more f') -> fm_first f <> t;
  mk_apart' : forall i f n, n < ls_count M -> is_form M (ls_sort M n) i f -> fm_l f = true -> fm_first f <> ls_sep M n /\ fm_first f <> ls_end M n;
  (** a sort with an operator that ends with an expression of another sort is used only where one and the same terminals can follow, by no other such
      operator, and its operators have no operands on the left; what follows cannot continue the expression *)
  mk_end : forall s i f s', is_form M s i f -> fm_r f = ROther s' ->
    s <> 0 /\ (forall j f', is_form M s j f' -> fm_l f' = false) /\ (forall s0 j f', is_form M s0 j f' -> fm_r f' <> ROther s) /\
    exists a b, (forall s0 j f' t, is_form M s0 j f' -> In (PArg s t) (fm_more f') -> t = a /\ t = b) /\ (forall n, n < ls_count M -> ls_sort M n = s -> ls_sep M n = a /\ ls_end M n = b) /\
      forall j f', is_form M s' j f' -> fm_l f' = true -> fm_first f' <> a /\ fm_first f' <> b }.

(** A grammar with exactly these rules, each once, in any order. *)
Definition listfix (M : lang) (ast : list aprod) : Prop :=
  (forall A b, In (A, b) (ast_rules ast) <-> lrule M A b) /\ NoDup (ast_rules ast) /\
  (exists st, find ap_start ast = Some st /\ ap_name st = lg_name M 0 0) /\ lang_ok M.

(** Expressions: an operator, of a sort and level, and for each of its operands one expression or, where a list stands, some. *)
Inductive lexp := LOp (s i : nat) (f : form) (ess : list (list lexp)).

(** How an expression is written. *)
Fixpoint join (t : sym) (ws : list (list sym)) : list sym :=
  match ws with [] => [] | [w] => w | w :: ws => w ++ t :: join t ws end.
Fixpoint fill (M : lang) (l : list slot) (wss : list (list (list sym))) : list sym :=
  match l, wss with
  | Tok t :: l, _ => t :: fill M l wss
  | Arg _ _ :: l, ws :: wss => concat ws ++ fill M l wss
  | Lst n :: l, ws :: wss => join (ls_sep M n) ws ++ fill M l wss
  | _, _ => []
  end.
Fixpoint lwritten (M : lang) (e : lexp) : list sym :=
  match e with LOp s i f ess => fill M (form_slots M s i f) (map (map (lwritten M)) ess) end.

(** An expression of a sort whose operator has level [i] or above, and whose operands are as the operator asks: lists are not empty. *)
Inductive hole := HArg (s i : nat) | HList (n : nat).
Definition holes (l : list slot) : list hole := flat_map (fun x => match x with Tok _ => [] | Arg s i => [HArg s i] | Lst n => [HList n] end) l.
Inductive lproper (M : lang) : nat -> nat -> lexp -> Prop :=
| lp_op s i j f ess : i <= j -> is_form M s j f -> Forall2 (fills M) (holes (form_slots M s j f)) ess -> lproper M s i (LOp s j f ess)
with fills (M : lang) : hole -> list lexp -> Prop :=
| ft_arg s i e : lproper M s i e -> fills M (HArg s i) [e]
| ft_one n e : lproper M (ls_sort M n) 0 e -> fills M (HList n) [e]
| ft_more n es e : fills M (HList n) es -> lproper M (ls_sort M n) 0 e -> fills M (HList n) (es ++ [e]).

(** The expressions of a parse tree: a node of the rule of an operator stands for the operator with what the
    children that are nodes stand for; a node of a rule that makes a list longer for what its children do, one after the other;
    a node of any other rule stands for what its child does. *)
Definition nodes (ts : list tree) : list tree := flat_map (fun t => match t with Leaf _ => [] | Node _ _ => [t] end) ts.
Inductive lmeans (g : grammar) (M : lang) : tree -> list lexp -> Prop :=
| lm_pass p pr A t es : nth_error (g_prods g) p = Some pr -> p_syms pr = [SNon A] -> lmeans g M t es -> lmeans g M (Node p [t]) es
| lm_more p pr n t x t' es es' : nth_error (g_prods g) p = Some pr -> n < ls_count M -> p_name pr = ls_name M n ->
    p_syms pr = [SNon (ls_name M n); ls_sep M n; SNon (lg_name M (ls_sort M n) 0)] -> lmeans g M t es -> lmeans g M t' es' -> lmeans g M (Node p [t; x; t']) (es ++ es')
| lm_op p pr s i f ts ess : nth_error (g_prods g) p = Some pr -> is_form M s i f -> p_name pr = lg_name M s i -> p_syms pr = map (slot_sym M) (form_slots M s i f) ->
    Forall2 (lmeans g M) (nodes ts) ess -> lmeans g M (Node p ts) [LOp s i f ess].
