(** What the generated parser file should contain for a grammar: specification for C37, C38, C39
    and C47.  The readers are in TsText.v and TsModule.v. *)
From Coq Require Import Ascii String.
From Verif Require Import Base Text Grammar Table TsText TsModule.
Local Open Scope list_scope.

(** ** Conditions on the grammar *)

(** The texts of literals and regexes stay inside the quotes around them. *)
Definition quotes_ok (g : grammar) : Prop :=
  forall s, In (Grammar.SStr s) (g_tokens g) \/ In (SReg s) (g_tokens g) -> unq 34 s <> None /\ unq 39 s <> None.
(** The code of the actions and types can be read. *)
Definition codes_ok (ast : list aprod) : Prop :=
  forall p, In p ast -> tame_type (ap_ts p) /\ forall b, In b (ap_bodies p) -> tame (ab_fn b).
(** What a token is called in [TokenKindToIdx], and that no two tokens are called the same. *)
Definition token_kind (x : sym) (n : list N) : Prop :=
  match x with Grammar.SStr s | SReg s => unq 39 s = Some n | SEof => n = tx "EOF" | _ => False end.
Definition kinds_distinct (g : grammar) : Prop :=
  forall i j x y n, get_token g i = Some x -> get_token g j = Some y -> token_kind x n -> token_kind y n -> i = j.
(** No symbol of the grammar has the name of a type that the generator declares itself, and no
    name is a keyword that begins a declaration. *)
Definition names_free (ast : list aprod) : Prop :=
  (forall p, In p ast -> ap_name p <> tx "type" /\ ap_name p <> tx "EmitProduction" /\ forall k, ap_name p <> tx "Action" ++ dec k) /\
  (forall p b n ty, In p ast -> In b (ap_bodies p) -> In (INamed (Some n) ty) (ab_syms b) -> n <> tx "type" /\ n <> tx "module").

(** ** The tables *)

(** An entry of [Tokens]. *)
Definition describes (x : sym) (e : list N * option (list N)) : Prop :=
  match x with
  | Grammar.SStr s => exists v, unq 34 s = Some v /\ e = (tx "strlit", Some v)
  | SNon n => e = (tx "nonterminal", Some n)
  | SReg r => exists v, unq 34 r = Some v /\ e = (tx "regex", Some v)
  | SEof => e = (tx "eof", None)
  | SEps => False
  end.
Definition same_action (a : action) (b : taction) : Prop :=
  match a, b with
  | Shift i, TShift j => N.of_nat i = j
  | Reduce i, TReduce j => N.of_nat i = j
  | Accept, TAccept => True
  | _, _ => False
  end.

(** The tables [P] are those of the grammar [g] and the parsing tables [t]. *)
Record tables_of_grammar (g : grammar) (t : tables) (P : parse_tables) : Prop := TablesOf {
  tg_tokens : forall k e, In (k, e) (pt_tokens P) <-> exists i x, k = N.of_nat i /\ get_token g i = Some x /\ describes x e;
  tg_prods : forall k n l, In (k, (n, l)) (pt_prods P) <-> exists i p, k = N.of_nat i /\ get_production g i = Some p /\ n = p_name p /\
               Forall2 (fun x j => get_token g (N.to_nat j) = Some x) (p_syms p) l;
  tg_action : forall s k b, (exists row, In (s, row) (pt_action P) /\ In (k, b) row) <->
                exists i j a, s = N.of_nat i /\ k = N.of_nat j /\ tbl_get (t_action t) i j = Some a /\ same_action a b;
  tg_goto : forall s n k, (exists row, In (s, row) (pt_goto P) /\ In (n, k) row) <->
                exists i j, s = N.of_nat i /\ k = N.of_nat j /\ tbl_get (t_goto t) i n = Some j;
  tg_kinds : forall n k, In (n, k) (pt_kinds P) <-> exists i x, k = N.of_nat i /\ get_token g i = Some x /\ token_kind x n }.

(** ** The actions *)

(** The only type of this name has parameters between angle brackets and is a conditional type. *)
Definition Conditional (body : list tok) (n : list N) (c : ctype) : Prop :=
  exists ps r r', declared (tx "type") n 0 body = [TPun 60 :: ps ++ TPun 62 :: TPun 61 :: r] /\ ~ In (TPun 61) ps /\ CT r c r' /\ ends r'.
(** The conditions checked in order, each with what happens when it is the first to fail. *)
Fixpoint spine (c : ctype) : list (list tok * ctype) :=
  match c with CAtom _ => [] | CCond x t e => (x, e) :: spine t end.

(** [prodIdx extends k]. *)
Definition index_test (k : N) : list tok := [word "prodIdx"; word "extends"; TNum k].
Definition calls_action (k : N) : list tok :=
  [word "actions"; TPun 46; TWord (tx "Action" ++ dec k); TPun 60; word "symbolStack"; TPun 62].
Definition invalid_index : list tok := [TStr 96 (tx "error: invalid production idx: ${prodIdx}")].
(** [U.PopNStackWithValue<symbolStack, n> extends [infer newStack, infer poppedValues]]. *)
Definition pops (n : N) : list tok :=
  [word "U"; TPun 46; word "PopNStackWithValue"; TPun 60; word "symbolStack"; TPun 44; TNum n; TPun 62; word "extends";
   TPun 91; word "infer"; word "newStack"; TPun 44; word "infer"; word "poppedValues"; TPun 93].
(** [[{ kind: 'NAME', value: CODE },...newStack]]. *)
Definition pushes (name : list N) (code : list tok) : list tok :=
  [TPun 91; TPun 123; word "kind"; TPun 58; TStr 39 name; TPun 44; word "value"; TPun 58] ++ code ++
  [TPun 125; TPun 44; TPun 46; TPun 46; TPun 46; word "newStack"; TPun 93].

(** [poppedValues extends [infer a, infer b, ]]. *)
Definition binds (ns : list (list N)) : list tok :=
  [word "poppedValues"; word "extends"; TPun 91] ++ flat_map (fun n => [word "infer"; TWord n; TPun 44]) ns ++ [TPun 93].
(** A symbol with the name [n] is bound to [__n]. *)
Definition bound (x : isym) (n : list N) : Prop := match x with INamed (Some m) _ => n = tx "__" ++ m | _ => True end.

(** The bodies of the grammar file in order. *)
Definition rules (ast : list aprod) : list (str * abody) := flat_map (fun p => map (fun b => (ap_name p, b)) (ap_bodies p)) ast.

(** The symbols with names, their positions from 1, once for every check: one check for a
    non-terminal, two for a literal or regex. *)
Definition symbol_checks (x : isym) : list (list N) :=
  match x with INamed (Some n) (INon _) => [n] | INamed (Some n) (IStr _) | INamed (Some n) (IReg _) => [n; n] | _ => [] end.
Fixpoint checked (i : nat) (l : list isym) : list (nat * list N) :=
  match l with [] => [] | x :: l => map (fun n => (i, n)) (symbol_checks x) ++ checked (S i) l end.
(** An error that names a position. *)
Definition names_position (e : ctype) (i : nat) (action : nat) : Prop :=
  exists q s, e = CAtom [TStr q (s ++ tx " (pos `" ++ decn i ++ tx "`, Action" ++ decn action ++ tx ")")] /\ ~ In 40%N s.

(** [infer n extends T], with [T] the type of the symbol; a regex stands for any string. *)
Definition type_of (x : isym) (t : tok) : Prop :=
  match x with INon n => t = TWord n | IStr s => exists v, unq 39 s = Some v /\ t = TStr 39 v | IReg _ => t = word "string" | _ => False end.
Definition constrained (n : list N) (x : isym) (c : list tok) : Prop :=
  exists a t b, c = a ++ word "infer" :: TWord n :: word "extends" :: t :: b /\ type_of x t.

(** The condition number [j] is the first that does not hold. *)
Definition first_failure (holds : list tok -> bool) (c : ctype) (j : nat) : Prop :=
  (forall m x, m < j -> nth_error (spine c) m = Some x -> holds (fst x) = true) /\
  exists x, nth_error (spine c) j = Some x /\ holds (fst x) = false.
