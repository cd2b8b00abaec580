(** Specification for "rules the start symbol cannot use": which names it needs, and a grammar
    with rules for other names added. *)
From Coq Require Import Permutation.
From Verif Require Import Base IsoSpec Grammar.

(** The names needed from [start] on, following [rules]. *)
Inductive needed (rules : list (str * list sym)) (start : str) : str -> Prop :=
| needed_start : needed rules start start
| needed_rule A b B : needed rules start A -> In (A, b) rules -> In (SNon B) b -> needed rules start B.

(** [ast'] has the rules of [ast] and those in [extra], in any order, and the same start symbol;
    the names that get extra rules are not needed. *)
Record adds_useless (ast ast' : list aprod) (extra : list (str * list sym)) : Prop := {
  au_rules : Permutation (ast_rules ast ++ extra) (ast_rules ast');
  au_start : exists s s', find ap_start ast = Some s /\ find ap_start ast' = Some s' /\ ap_name s' = ap_name s /\
    forall A b, In (A, b) extra -> ~ needed (ast_rules ast) (ap_name s) A }.

(** The extra rules have no literal and no regex that is not in the others. *)
Definition no_new_tokens (ast : list aprod) (extra : list (str * list sym)) : Prop :=
  forall A b x, In (A, b) extra -> In x b -> (exists n, x = SNon n) \/ exists B c, In (B, c) (ast_rules ast) /\ In x c.
