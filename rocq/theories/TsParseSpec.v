(** What the type-level parser should compute: specification for C43. *)
From Coq Require Import Ascii String.
From Verif Require Import Base Text Grammar GrammarSpec ParseSpec TsText TsModule ParseGenSpec TsUtil TsLex TsParse.
Local Open Scope list_scope.

(** The lexer's token [u] is the token number [k] of the grammar. *)
Definition is_token (g : grammar) (u : ts_tok) (k : nat) : Prop :=
  exists x n v, get_token g k = Some x /\ token_kind x n /\ u = TTok n v.

(** The symbol of the type-level parser for a parse tree over these tokens: the leaves are the
    tokens in order, the value of a node is what the code of its production computes from the
    symbols of its children. *)
Section Denotes.
  Variable V : Type.
  Variable g : grammar.
  Variable code : N -> list (symbol V) -> V.
  Inductive Denotes : tree -> list ts_tok -> symbol V -> Prop :=
  | den_leaf x n v q : token_kind x n -> Denotes (Leaf x) [TTok n v] (SymTok (TTok n v) q)
  | den_node p pr ts us ss : nth_error (g_prods g) p = Some pr -> DenotesAll ts us ss ->
      Denotes (Node p ts) us (SymNon (p_name pr) (code (N.of_nat p) ss))
  with DenotesAll : list tree -> list ts_tok -> list (symbol V) -> Prop :=
  | den_nil : DenotesAll [] [] []
  | den_cons tr u s ts us ss : Denotes tr u s -> DenotesAll ts us ss -> DenotesAll (tr :: ts) (u ++ us) (s :: ss).
End Denotes.

(** A symbol that a body gives a name to. *)
Definition named (ast : list aprod) (x : isym) : Prop :=
  exists p b n, In p ast /\ In b (ap_bodies p) /\ In (INamed (Some n) x) (ab_syms b).
(** The tokens of literals that are given names carry their text. *)
Definition literals_carried (ast : list aprod) (us : list ts_tok) : Prop :=
  forall l n v, named ast (IStr l) -> unq 39 l = Some n -> In (TTok n v) us -> v = Some (TLit n).
(** The condition for regexes that are given names holds of their tokens. *)
Definition regexes_pass (regex_holds : option tstr -> bool) (ast : list aprod) (us : list ts_tok) : Prop :=
  forall r n v, named ast (IReg r) -> unq 39 r = Some n -> In (TTok n v) us -> regex_holds v = true.
(** The code of a rule computes values of the type declared for its name. *)
Definition well_typed {V} (code : N -> list (symbol V) -> V) (has_type : list N -> V -> bool) (regex_holds : option tstr -> bool) (ast : list aprod) : Prop :=
  forall k name b popped, nth_error (rules ast) k = Some (name, b) ->
    all_hold V has_type regex_holds (ab_syms b) popped = true -> has_type name (code (N.of_nat (S k)) popped) = true.

(** What the type-level parser says, given the result of the Rust parser on the tokens [w] and EOF.
    An accepting run takes one step for every token and every reduction; 49 steps are allowed.  The
    result is then one symbol, the start symbol with the value of a parse tree of the tokens whose
    reductions are those of the Rust parser.  Rejections agree up to the number of steps. *)
Definition agrees {V} (g : grammar) (code : N -> list (symbol V) -> V) (start : str) (us : list ts_tok) (w : list nat)
  (r : res (list nat)) (X : parse_out V) : Prop :=
  match r with
  | Ok ps =>
      if length w + length ps <? 50
      then exists tr v, X = PStack [SymNon start v] /\ parse_tree g start w tr /\ ps = postorder tr /\
             Denotes V g code tr (firstn (length w) us) (SymNon start v)
      else X = PDepth
  | Panic p => X = PDepth \/ (p = PInvalidToken /\ exists a l, X = PInvalid a l) \/ (p = PGotoEmpty /\ X = PNoGoto)
  | Diverge => X = PDepth
  end.
