(** What the results of the type-level parser show (C68). *)
From Verif Require Import Base Grammar GrammarSpec Item Table Parse ParseSpec ReportSpec ParseGenSpec TsUtil TsLex TsParse TsParseSpec.

Section Shows.
  Variable V : Type.
  Variables (ast : list aprod) (g : grammar) (start : str) (t : tables).
  Variable code : N -> list (symbol V) -> V.
  Variable has_type : list N -> V -> bool.
  Variable regex_holds : option tstr -> bool.
  (** The tokens, their numbers, and the numbers without the end. *)
  Variables (us : list ts_tok) (tokens w : list nat).

  (** The stack [l], topmost symbol first, shows the first [i] tokens: its symbols are the tokens
      themselves and values of trees of the grammar, and the leaves of the trees are the tokens, in
      order, none missing and none twice. *)
  Definition shows (i : nat) (l : list (symbol V)) : Prop :=
    i <= length w /\ exists ts, Forall (tree_ok g) ts /\ symbols g (firstn i w) (flat_map yield ts) /\ DenotesAll V g code ts (firstn i us) (rev l).
  (** A condition on the symbols of the body of rule [p], or the declared type of what it computes,
      fails on the topmost symbols of [l]. *)
  Definition refuses (p : nat) (l : list (symbol V)) : Prop :=
    exists pr b rest vs, 1 <= p /\ nth_error (g_prods g) p = Some pr /\ nth_error (rules ast) (p - 1) = Some (p_name pr, b) /\
      rev l = rest ++ vs /\ length vs = length (p_syms pr) /\
      (all_hold V has_type regex_holds (ab_syms b) vs = false \/ has_type (p_name pr) (code (N.of_nat p) vs) = false).
  (** The Rust parser is at [c] after [n] steps. *)
  Definition gets_to (n : nat) (c : pstate) : Prop :=
    exists a, nth_error tokens 0 = Some a /\ nsteps (parse_step g t tokens) n (parse_init a) c.

  Definition explained (X : parse_out V) : Prop :=
    match X with
    (* the value of the parse tree of all tokens; the Rust parser accepts *)
    | PStack l => exists tr v, l = [SymNon start v] /\ parse_tree g start w tr /\ parse_impl g t tokens = Ok (postorder tr) /\
        Denotes V g code tr (firstn (length w) us) (SymNon start v)
    (* the first wrong token and everything before it *)
    | PInvalid a l => exists i k, a = N.of_nat k /\ nth_error tokens i = Some k /\ shows i l /\ parse_impl g t tokens = Panic PInvalidToken /\
        (all_productive g -> viable_prefix g start (firstn i w)) /\ (closed g t -> ~ can_follow g start (firstn i w) k)
    (* the rule whose check fails, with the state and the token at which the Rust parser reduces by it *)
    | PAction state a l => exists n c c' q s p, gets_to n c /\ n < 50 /\ ps_stack c = q :: s /\ state = N.of_nat q /\ a = N.of_nat (ps_a c) /\
        shows (ps_i c) l /\ parse_step g t tokens c = inl c' /\ ps_trace c' = ps_trace c ++ [p] /\ refuses p l
    | PNoGoto => parse_impl g t tokens = Panic PGotoEmpty
    | PDepth => exists c, gets_to 50 c
    | PMessage | PNever => False
    end.
End Shows.
