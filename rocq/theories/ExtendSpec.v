(** Specification for C76: a grammar with more rules. *)
From Verif Require Import Base Grammar GrammarSpec IsoSpec.

(** [ast'] has all rules of [ast], and the same start symbol. *)
Definition extends (ast ast' : list aprod) : Prop :=
  incl (ast_rules ast) (ast_rules ast') /\
  exists s s', find ap_start ast = Some s /\ find ap_start ast' = Some s' /\ ap_name s' = ap_name s.

(** Production [p] of one grammar is the same rule as production [p'] of the other. *)
Definition same_rule (g g' : grammar) (p p' : nat) : Prop :=
  exists pr pr', nth_error (g_prods g) p = Some pr /\ nth_error (g_prods g') p' = Some pr' /\
    p_name pr' = p_name pr /\ p_syms pr' = p_syms pr.

(** The larger one has no other literals and regexes. *)
Definition same_terminals (ast ast' : list aprod) : Prop :=
  forall A b x, In (A, b) (ast_rules ast') -> In x b -> terminal x -> exists B c, In (B, c) (ast_rules ast) /\ In x c.
