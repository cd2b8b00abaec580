(** Specification for "the same grammar written differently": the rules of a grammar in another
    order, with other names for the non-terminals. *)
From Coq Require Import Permutation.
From Verif Require Import Base Grammar.

(** Renaming the non-terminals of a symbol. *)
Definition rsym (r : str -> str) (x : sym) : sym := match x with SNon n => SNon (r n) | _ => x end.

(** What a symbol is: a non-terminal, a terminal (literal or regex), the empty word, the end. *)
Definition sym_kind (x : sym) : nat := match x with SNon _ => 0 | SStr _ | SReg _ => 1 | SEps => 2 | SEof => 3 end.

(** Under a map of symbols: the name of a non-terminal, and a rule. *)
Definition rn (X : sym -> sym) (n : str) : str := match X (SNon n) with SNon m => m | _ => n end.
Definition xrule (X : sym -> sym) (e : str * list sym) : str * list sym := (rn X (fst e), map X (snd e)).

(** The rules an AST writes down, in order: a name and the symbols of one alternative. *)
Definition ast_rules (ast : list aprod) : list (str * list sym) :=
  flat_map (fun p => map (fun b => (ap_name p, map lower (ab_syms b))) (ap_bodies p)) ast.
Definition rrule (r : str -> str) (e : str * list sym) : str * list sym := (r (fst e), map (rsym r) (snd e)).

(** The names an AST uses. *)
Definition ast_names (ast : list aprod) : list str :=
  flat_map (fun e => fst e :: flat_map (fun x => match x with SNon n => [n] | _ => [] end) (snd e)) (ast_rules ast).

(** [ast'] has the rules of [ast] in some order, with the non-terminals renamed by [r], and the
    same start symbol.  The renaming identifies no two names, and respects the name the code makes
    up for the start rule (the start symbol's with an apostrophe). *)
Record same_rules (r : str -> str) (ast ast' : list aprod) : Prop := {
  sr_rules : Permutation (map (rrule r) (ast_rules ast)) (ast_rules ast');
  sr_start : exists s s', find ap_start ast = Some s /\ find ap_start ast' = Some s' /\ ap_name s' = r (ap_name s) /\
    r (aug_name (ap_name s)) = aug_name (ap_name s') /\
    forall n n', In n (aug_name (ap_name s) :: ap_name s :: ast_names ast) ->
      In n' (aug_name (ap_name s) :: ap_name s :: ast_names ast) -> r n = r n' -> n = n' }.

(** The symbols an AST uses, with the start rule the code adds. *)
Definition ast_syms (s : aprod) (ast : list aprod) : list sym :=
  SNon (aug_name (ap_name s)) :: SNon (ap_name s) :: flat_map (fun e => SNon (fst e) :: snd e) (ast_rules ast).

(** [ast'] has the rules of [ast] in some order, with each symbol [x] written [X x], where [X]
    keeps what symbols are, identifies no two of them, and respects the made-up start rule. *)
Record respelt (X : sym -> sym) (ast ast' : list aprod) : Prop := {
  rs_rules : Permutation (map (xrule X) (ast_rules ast)) (ast_rules ast');
  rs_start : exists s s', find ap_start ast = Some s /\ find ap_start ast' = Some s' /\
    X (SNon (ap_name s)) = SNon (ap_name s') /\ X (SNon (aug_name (ap_name s))) = SNon (aug_name (ap_name s')) /\
    (forall x, In x (ast_syms s ast) -> sym_kind (X x) = sym_kind x) /\
    (forall x y, In x (ast_syms s ast) -> In y (ast_syms s ast) -> X x = X y -> x = y) }.

(** A result with its value changed. *)
Definition rmap {A B} (f : A -> B) (x : res A) : res B :=
  match x with Ok a => Ok (f a) | Panic p => Panic p | Diverge => Diverge end.
