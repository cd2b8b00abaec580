(** Model of /repo/ts/parse.ts: the parser that the TypeScript compiler runs on the generated tables,
    and of what the generated actions do to its symbol stack.

    [size] is the size of the arithmetic tables and [P] the tables of the generated file.  [never] is
    modelled where it can arise; see TsUtil.v for what is left out of the compiler. *)
From Coq Require Import Ascii String.
From Verif Require Import Base Text Grammar TsText TsModule TsUtil TsLex.
Local Open Scope list_scope.

(** Member access by name. As in parse.ts:5-21 and 45-59. *)
Definition gets {A} (k : list N) (l : list (list N * A)) : option A := option_map snd (find (fun e => eqb (fst e) k) l).
(** Member access by number, as in parse.ts:5-21. *)
Definition getn {A} (k : N) (l : list (N * A)) : option A := option_map snd (find (fun e => (fst e =? k)%N) l).

Section Parse.
  (** The types of values that actions compute. *)
  Variable V : Type.
  Variable size : nat.
  Variable P : parse_tables.

  (** parse_state2.gen.ts [Symbol] (parse_gen.rs:166-174), a token with the state of parse.ts:79. *)
  Inductive symbol := SymTok (t : ts_tok) (lmao : N) | SymNon (kind : list N) (value : V).

  (** [actions.EmitProduction]: the new symbol stack, or an error. *)
  Variable emit : N -> list symbol -> option (list symbol).

  (** What [Parse] evaluates to: the symbol stack (parse.ts:167), the depth message (138), the
      invalid token message (168), the error of an action (116-120), a missing goto ("not good",
      122), another message, or [never]. *)
  Inductive parse_out :=
  | PStack (l : list symbol) | PDepth | PInvalid (a : N) (l : list symbol) | PAction (state a : N) (l : list symbol)
  | PNoGoto | PMessage | PNever.

  (** parse.ts:5-12 [GetAction]; [None] is an error message. *)
  Definition GetAction (top a : N) : option taction :=
    match getn top (pt_action P) with Some row => getn a row | None => None end.
  (** parse.ts:14-21 [GetGoto]. *)
  Definition GetGoto (state : N) (name : list N) : option N :=
    match getn state (pt_goto P) with Some row => gets name row | None => None end.

  (** parse.ts:23-35 [NextToken]: past the last token both stay.  A comparison beyond the tables is
      [never], which counts as true; the index is then out of range and [a] not a number. *)
  Inductive next_tok := NTok (a : N) (i : nat) | NMessage | NNever.
  (** parse.ts:23-35 [NextToken]. *)
  Definition NextToken (a : N) (i : nat) (input : list N) : next_tok :=
    match Succ size (Some i) with
    | None => NNever
    | Some i' =>
        if may_be_true (Lt size (Some i') (Some (length input)))
        then match nth_error input i' with Some a' => NTok a' i' | None => NMessage end
        else NTok a i
    end.

  (** parse.ts:44-59 [TokenIndicesImpl]: a token that is [never] makes everything [never]. *)
  Inductive indices := IxNums (l : list N) | IxMessage | IxNever.
  (** parse.ts:45-59 [TokenIndicesImpl]. *)
  Fixpoint TokenIndicesImpl (toks : list ts_tok) (ret : list N) : indices :=
    match toks with
    | [] => IxNums ret
    | TTokNever :: _ => IxNever
    | TTok kind _ :: tail =>
        match gets kind (pt_kinds P) with
        | Some k => TokenIndicesImpl tail (k :: ret)
        | None => IxMessage
        end
    end.
  (** parse.ts:37-43 [TokenIndices]. *)
  Definition TokenIndices (toks : list ts_tok) : indices :=
    match TokenIndicesImpl toks [] with IxNums l => IxNums (Reverse l) | x => x end.

  (** parse.ts:61-171 [ParseImplShift], [ParseImplReduce] and [ParseImpl], by recursion on the
      literal [maxRecursionDepth] ([Pred] beyond the table is [never], and so is the result). *)
  Fixpoint ParseImpl (depth : nat) (tokenInputs : list ts_tok) (input stack : list N) (i : nat) (a : N) (symbolStack : list symbol) : parse_out :=
    match depth with
    | O => PDepth
    | S depth' =>
        let again stack i a symbolStack := if S depth' <=? size then ParseImpl depth' tokenInputs input stack i a symbolStack else PNever in
        match stack with
        | [] => PMessage
        | top :: _ =>
            match GetAction top a with
            | Some (TShift q) =>
                match NextToken a i input, nth_error tokenInputs i with
                | NTok a' i', Some t => again (q :: stack) i' a' (SymTok t q :: symbolStack)
                | NTok _ _, None => PMessage
                | NMessage, _ => PMessage
                | NNever, _ => PNever
                end
            | Some (TReduce rule) =>
                match getn rule (pt_prods P) with
                | None => PMessage
                | Some (name, tokens) =>
                    match PopNStack size stack (length tokens) with
                    | None => PNever
                    | Some [] => PMessage
                    | Some (top' :: rest) =>
                        match GetGoto top' name with
                        | None => PNoGoto
                        | Some q =>
                            match emit rule symbolStack with
                            | Some symbolStack' => again (q :: top' :: rest) i a symbolStack'
                            | None => PAction top a symbolStack
                            end
                        end
                    end
                end
            | Some TAccept => PStack symbolStack
            | None => PInvalid a symbolStack
            end
        end
    end.

  (** parse.ts:173-180 [Parse].  Of an empty list of tokens the first is [undefined]. *)
  Definition Parse (toks : list ts_tok) : parse_out :=
    match TokenIndices toks with
    | IxNums [] => PMessage
    | IxNums (a :: input) => ParseImpl 50 toks (a :: input) [0%N] 0 a []
    | IxMessage => PMessage
    | IxNever => PNever
    end.
End Parse.
Arguments SymTok {V} t lmao. Arguments SymNon {V} kind value.
Arguments PStack {V} l. Arguments PDepth {V}. Arguments PInvalid {V} a l. Arguments PAction {V} state a l.
Arguments PNoGoto {V}. Arguments PMessage {V}. Arguments PNever {V}.

Section Emit.
  Variable V : Type.
  Variable size : nat.
  Variable ast : list aprod.
  (** The code of action [k], given the symbols popped (in the order of the body).  Code that looks
      at other types of its surroundings is not covered. *)
  Variable code : N -> list (symbol V) -> V.
  (** Does a value have the declared type of a symbol of the grammar? *)
  Variable has_type : list N -> V -> bool.
  (** Does the condition for a named regex hold of a value?  It is written [extendsstring] (C39). *)
  Variable regex_holds : option tstr -> bool.

  (** parse_gen.rs:473-531: the conditions on a symbol with a name (what they are: C38, C39). *)
  Definition symbol_holds (x : isym) (s : symbol V) : bool :=
    match x with
    | INamed (Some _) (INon nt) => match s with SymNon kind v => eqb kind nt && has_type nt v | SymTok _ _ => false end
    | INamed (Some _) (IStr l) =>
        match s, unq 39 l with SymTok (TTok _ (Some (TLit v))) _, Some l' => eqb v l' | _, _ => false end
    | INamed (Some _) (IReg _) => match s with SymTok (TTok _ v) _ => regex_holds v | _ => false end
    | _ => true
    end.
  (** parse_gen.rs:465-545: the conditions of all symbols. *)
  Fixpoint all_hold (l : list isym) (ss : list (symbol V)) : bool :=
    match l, ss with
    | [], [] => true
    | x :: l, s :: ss => symbol_holds x s && all_hold l ss
    | _, _ => false
    end.

  (** parse_gen.rs:311-323 [EmitProduction] and 391-463, the action of a production: pop the body,
      check it, push the name with the value (what the text says: C37).  The value must have the type
      declared for the name, for the stack is matched against [Symbol[]] (parse.ts:103-106,
      parse_gen.rs:166-174). *)
  Definition EmitProduction (k : N) (stack : list (symbol V)) : option (list (symbol V)) :=
    match N.to_nat k with
    | O => None
    | S k' =>
        match nth_error (flat_map (fun p => map (fun b => (ap_name p, ab_syms b)) (ap_bodies p)) ast) k' with
        | None => None
        | Some (name, body) =>
            match PopNStackWithValue size stack (length body) with
            | None => None
            | Some (rest, popped) => if all_hold body popped && has_type name (code k popped) then Some (SymNon name (code k popped) :: rest) else None
            end
        end
    end.
End Emit.
