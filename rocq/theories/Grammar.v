(** Model of the grammar data structures: /repo/src/parser/mod.rs, /repo/src/parser/ast.rs. *)
From Verif Require Import Base.

(** Strings are lists of code points; [Ident] (ast.rs:38-40) is a string.  Rust compares strings
    by their UTF-8 bytes, which is the lexicographic order of the code points. *)
Definition str := list N.

(** mod.rs:29-36 [Symbol]. *)
Inductive sym :=
| SStr (s : str)
| SNon (s : str)
| SReg (s : str)
| SEps
| SEof.

(** The derived order of [Symbol] (mod.rs:29): by variant in declaration order, then payload. *)
Definition sym_code (x : sym) : nat * str :=
  match x with
  | SStr s => (0, s)
  | SNon s => (1, s)
  | SReg s => (2, s)
  | SEps => (3, [])
  | SEof => (4, [])
  end.

Lemma sym_code_inj x y : sym_code x = sym_code y -> x = y.
Proof. destruct x, y; simpl; intros E; congruence. Qed.

#[global] Instance Ord_sym : Ord sym.
Proof.
  refine {| cmp := fun x y => cmp (sym_code x) (sym_code y) |}.
  - intros a b. rewrite cmp_eq. split; [apply sym_code_inj|congruence].
  - intros a b. apply cmp_antisym.
  - intros a b c. apply cmp_trans.
Defined.

(** ast.rs:22-36 [InputSymbol] and [NamedSymbol]. *)
Inductive isym :=
| IStr (s : str)
| INamed (name : option str) (ty : isym)
| INon (s : str)
| IReg (s : str)
| IEps
| IEof.

(** ast.rs:47-58 [lower]. *)
Fixpoint lower (x : isym) : sym :=
  match x with
  | IStr a => SStr a
  | INamed _ ty => lower ty
  | INon n => SNon n
  | IReg r => SReg r
  | IEps => SEps
  | IEof => SEof
  end.

(** ast.rs:16-20 [ProductionBody]. *)
Record abody := ABody { ab_syms : list isym; ab_fn : str }.
(** ast.rs:8-14 [Production]. *)
Record aprod := AProd { ap_name : str; ap_bodies : list abody; ap_start : bool; ap_ts : str }.

(** mod.rs:38-44 [Production]. *)
Record production := Production {
  p_name : str;
  p_syms : list sym;
  p_fn : option str;
  p_ts : option str }.

(** mod.rs:22-27 [Grammar]. *)
Record grammar := Grammar {
  g_names : list (str * list nat);
  g_prods : list production;
  g_tokens : list sym;
  g_start : str }.

(** mod.rs:277-291 [from_ast]. *)
Definition from_ast (p : aprod) (b : abody) : production :=
  Production (ap_name p) (map lower (ab_syms b)) (Some (ab_fn b)) (Some (ap_ts p)).

(** mod.rs:82-94: one body of one production. *)
Definition add_body (p : aprod) (st : list (str * list nat) * list production) (b : abody) :=
  let '(names, prods) := st in
  let idx := length prods in
  (map_alter (ap_name p) (fun o => match o with None => [idx] | Some l => l ++ [idx] end) names,
   prods ++ [from_ast p b]).

(** mod.rs:81-95. *)
Definition add_prod (st : list (str * list nat) * list production) (p : aprod) :=
  fold_left (add_body p) (ap_bodies p) st.

(** mod.rs:68: the start name followed by an apostrophe. *)
Definition aug_name (s : str) : str := s ++ [39%N].

(** mod.rs:97-105: the token table. *)
Definition make_tokens (prods : list production) : list sym :=
  SEof :: fold_left (fun s p => set_extend (p_syms p) s) prods [].

(** mod.rs:57-113 [grammar_from_ast_productions]. *)
Definition grammar_from_ast (ast : list aprod) : res grammar :=
  match find ap_start ast with
  | None => Panic PNoStart
  | Some st =>
      let aug := aug_name (ap_name st) in
      let '(names, prods) :=
        fold_left add_prod ast
          (map_insert aug [0] [], [Production aug [SNon (ap_name st)] None None]) in
      Ok (Grammar names prods (make_tokens prods) aug)
  end.

(** mod.rs:160-162 [get_production]. *)
Definition get_production (g : grammar) (i : nat) : option production := nth_error (g_prods g) i.
(** mod.rs:156-158 [get_production_indices_by_name]. *)
Definition production_indices (g : grammar) (n : str) : option (list nat) := map_get n (g_names g).
(** mod.rs:164-166 [get_token]. *)
Definition get_token (g : grammar) (i : nat) : option sym := nth_error (g_tokens g) i.
(** mod.rs:168-176 [get_token_idx]. *)
Definition get_token_idx (g : grammar) (x : sym) : option nat := find_index (fun t => eqb t x) (g_tokens g).

(** mod.rs:294-305 [ProductionIter::next], iterated: stops at the first index out of range. *)
Fixpoint prod_iter (prods : list production) (idxs : list nat) : list (nat * production) :=
  match idxs with
  | [] => []
  | i :: l => match nth_error prods i with
              | Some p => (i, p) :: prod_iter prods l
              | None => []
              end
  end.
(** mod.rs:120-126 [production_iter]. *)
Definition production_iter (g : grammar) (n : str) : res (list (nat * production)) :=
  match map_get n (g_names g) with
  | None => Panic PUnwrapNone
  | Some idxs => Ok (prod_iter (g_prods g) idxs)
  end.

(** mod.rs:224-229 [as_non_terminal]. *)
Definition as_non (x : sym) : option str := match x with SNon n => Some n | _ => None end.
(** mod.rs:231-236 [is_terminal]. *)
Definition is_term (x : sym) : bool := match x with SNon _ => false | _ => true end.

(** mod.rs:144-154 [non_terminals]: token indices and names of the non-terminals among the
    tokens. *)
Fixpoint non_terms_from (i : nat) (l : list sym) : list (nat * str) :=
  match l with
  | [] => []
  | x :: l' => match as_non x with
               | Some n => (i, n) :: non_terms_from (S i) l'
               | None => non_terms_from (S i) l'
               end
  end.
(** mod.rs:144-154 [non_terminals]. *)
Definition non_terminals (g : grammar) : list (nat * str) := non_terms_from 0 (g_tokens g).
