(** Specification for C83: grammars of expressions with levels of precedence, and the expressions. *)
From Verif Require Import Base Grammar GrammarSpec IsoSpec.

(** Level 0 binds loosest.  Each level below [ly_top] has operators that all associate to the left or all
    to the right; above are atoms and expressions in brackets. *)
Record layers := Layers {
  ly_name : nat -> str; ly_top : nat; ly_left : nat -> bool; ly_ops : nat -> list sym;
  ly_open : sym; ly_close : sym; ly_atoms : list sym }.

(** The rules, as one writes them in a textbook. *)
Inductive lrule (L : layers) : str -> list sym -> Prop :=
| lr_left i op : i < ly_top L -> ly_left L i = true -> In op (ly_ops L i) ->
    lrule L (ly_name L i) [SNon (ly_name L i); op; SNon (ly_name L (S i))]
| lr_right i op : i < ly_top L -> ly_left L i = false -> In op (ly_ops L i) ->
    lrule L (ly_name L i) [SNon (ly_name L (S i)); op; SNon (ly_name L i)]
| lr_pass i : i < ly_top L -> lrule L (ly_name L i) [SNon (ly_name L (S i))]
| lr_paren : lrule L (ly_name L (ly_top L)) [ly_open L; SNon (ly_name L 0); ly_close L]
| lr_atom a : In a (ly_atoms L) -> lrule L (ly_name L (ly_top L)) [a].

(** All the terminals. *)
Definition ly_tokens (L : layers) : list sym := ly_open L :: ly_close L :: ly_atoms L ++ flat_map (ly_ops L) (seq 0 (ly_top L)).

(** A grammar with exactly these rules, each once, in any order; different levels have different names,
    and every terminal is written at one place. *)
Definition layered (L : layers) (ast : list aprod) : Prop :=
  (forall A b, In (A, b) (ast_rules ast) <-> lrule L A b) /\ NoDup (ast_rules ast) /\
  (exists st, find ap_start ast = Some st /\ ap_name st = ly_name L 0) /\
  (forall i j, i <= ly_top L -> j <= ly_top L -> ly_name L i = ly_name L j -> i = j) /\
  NoDup (ly_tokens L) /\ Forall terminal (ly_tokens L).

(** Expressions. *)
Inductive expr := EAtom (a : sym) | EParen (e : expr) | EBin (op : sym) (e1 e2 : expr).

(** How an expression is written. *)
Fixpoint written (L : layers) (e : expr) : list sym :=
  match e with
  | EAtom a => [a]
  | EParen e => ly_open L :: written L e ++ [ly_close L]
  | EBin op e1 e2 => written L e1 ++ op :: written L e2
  end.

(** Brackets are where precedence and associativity need them: outside brackets there are only operators of
    level [i] and above; the operands of an operator have only operators of higher levels, but on the
    side to which it associates also its own level. *)
Inductive proper (L : layers) : nat -> expr -> Prop :=
| pr_atom i a : In a (ly_atoms L) -> proper L i (EAtom a)
| pr_paren i e : proper L 0 e -> proper L i (EParen e)
| pr_left i j op e1 e2 : i <= j -> j < ly_top L -> ly_left L j = true -> In op (ly_ops L j) ->
    proper L j e1 -> proper L (S j) e2 -> proper L i (EBin op e1 e2)
| pr_right i j op e1 e2 : i <= j -> j < ly_top L -> ly_left L j = false -> In op (ly_ops L j) ->
    proper L (S j) e1 -> proper L j e2 -> proper L i (EBin op e1 e2).

(** The expression of a parse tree: nodes with one child that is a node stand for it. *)
Inductive means : tree -> expr -> Prop :=
| mn_atom p a : means (Node p [Leaf a]) (EAtom a)
| mn_pass p q ts e : means (Node q ts) e -> means (Node p [Node q ts]) e
| mn_paren p x t y e : means t e -> means (Node p [Leaf x; t; Leaf y]) (EParen e)
| mn_bin p t1 op t2 e1 e2 : means t1 e1 -> means t2 e2 -> means (Node p [t1; Leaf op; t2]) (EBin op e1 e2).
