(** Model of /repo/ts/lex.ts: the lexer that the TypeScript compiler runs on the generated tables.

    [size] is the size of the arithmetic tables, [chars] the character table ([CharTable]), [T] the
    lexer tables.  [never] is modelled where it can arise; see TsUtil.v for what is left out of the
    compiler. *)
From Verif Require Import Base TsTables TsUtil.

(** lex.ts:27-30 [Token]; [never] when no definition is found (lex.ts:53-62). *)
Inductive ts_tok := TTok (kind : list N) (value : option tstr) | TTokNever.

(** What [Lex] evaluates to: a list of tokens, the error string of lex.ts:172 (character, index), the
    error string of lex.ts:95 and 175, [never], or one of the "unreachable" strings. *)
Inductive lex_out := LexToks (l : list ts_tok) | LexBad (c : N) (index : nat) | LexBadChar | LexNever | LexOther.

Section Lex.
  Variable size : nat.
  Variable chars : list (N * N).
  Variable T : lex_tables.
  Variable input : list N.

  (** lex.ts:48-62 [TokenDefToToken]. *)
  Definition TokenDefToToken (q begin forward : nat) : ts_tok :=
    match token_def_of T (N.of_nat q) with
    | Some (kind, true) => TTok kind (Some (Substring size input (Some begin) (Succ size (Some forward))))
    | Some (kind, false) => TTok kind None
    | None => TTokNever
    end.

  (** lex.ts:64-69 [RangeContains]: [never] is assignable to [true]. *)
  Definition may_be_true (b : option bool) : bool := match b with Some b => b | None => true end.
  (** lex.ts:64-69 [RangeContains]. *)
  Definition RangeContains (range : N * N) (label : nat) : bool :=
    may_be_true (Gte size (Some label) (Some (N.to_nat (fst range)))) &&
    may_be_true (Lt size (Some label) (Some (N.to_nat (snd range)))).

  (** lex.ts:71-81 [NextState]: a number, [undefined] or [never].  [labels] and [to] are what is left of
      the state's arrays from index [i] on; an index of [never] makes every test succeed and the
      result [never]. *)
  Inductive next := NextTo (i : nat) | NextUndef | NextNever.
  (** lex.ts:71-81 [NextState]. *)
  Fixpoint NextState (label : nat) (labels : list (N * N)) (to : list N) (i : option nat) : next :=
    match i with
    | None => NextNever
    | Some _ =>
        match labels with
        | [] => NextUndef
        | r :: labels' =>
            if RangeContains r label then match to with t :: _ => NextTo (N.to_nat t) | [] => NextUndef end
            else NextState label labels' (tl to) (Succ size i)
        end
    end.

  (** The parameters of [LexImpl] (lex.ts:98-107) that change; tokens are in reverse. *)
  Record xstate := XState { x_state : nat; x_tokens : list ts_tok; x_begin : nat; x_forward : nat; x_last : option (nat * nat) }.

  (** lex.ts:187-218: the end of [Lex]. *)
  Definition EOF : ts_tok := TTok [69; 79; 70]%N None.
  (** lex.ts:187-218: the tokens returned at the end. *)
  Definition x_finish (s : xstate) : lex_out :=
    match x_last s with
    | Some (k, q) => LexToks (Reverse (EOF :: TokenDefToToken q (x_begin s) k :: x_tokens s))
    | None => LexToks (Reverse (EOF :: x_tokens s))
    end.

  (** lex.ts:107-176: one instantiation of [LexImpl].  With [forward] equal to [never] the result is
      [never], as [char] is. *)
  Definition x_step (s : xstate) : xstate + lex_out :=
    match nth_error input (x_forward s) with
    | None => inr (x_finish s)
    | Some c =>
        match map_get c chars, nth_error (lt_states T) (x_state s) with
        | None, _ => inr LexBadChar
        | _, None => inr LexOther
        | Some code, Some st =>
            match NextState (N.to_nat code) (tl_labels st) (tl_to st) (Some 0) with
            | NextNever => inr LexNever
            | NextTo j =>
                match nth_error (lt_states T) j, Succ size (Some (x_forward s)) with
                | None, _ => inr LexOther
                | _, None => inr LexNever
                | Some st', Some f =>
                    inl (XState j (x_tokens s) (x_begin s) f
                           (if tl_accepting st' then Some (x_forward s, j) else x_last s))
                end
            | NextUndef =>
                match x_last s with
                | Some (k, q) =>
                    match geti (N.of_nat q) (lt_d2n T), Succ size (Some k) with
                    | None, _ => inr LexOther
                    | _, None => inr LexNever
                    | Some _, Some f => inl (XState 0 (TokenDefToToken q (x_begin s) k :: x_tokens s) f f None)
                    end
                | None =>
                    if IsWhitespace c && (x_forward s =? x_begin s) then
                      match Succ size (Some (x_begin s)), Succ size (Some (x_forward s)) with
                      | Some b, Some f => inl (XState (x_state s) (x_tokens s) b f None)
                      | _, _ => inr LexNever
                      end
                    else inr (LexBad c (x_forward s))
                end
            end
        end
    end.

  (** lex.ts:87-96 [StringToCharList] and 178-218 [Lex].  When the conversion fails [Lex] evaluates
      to a string.  The number of instantiations is bounded as in [lex]. *)
  Definition ts_lex : lex_out :=
    if forallb (fun c => map_mem c chars) input then
      match run x_step (2 * N.size_nat (N.of_nat (S (length input)))) (XState 0 [] 0 0 None) with
      | inl _ => LexNever
      | inr r => r
      end
    else LexBadChar.
End Lex.
