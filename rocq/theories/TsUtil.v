(** Model of /repo/ts/util.ts: type-level numbers, lists and strings, over the generated tables
    of arith_table.gen.ts.

    A number type is [Some i] for the literal [i] and [None] for [never]; a boolean type is
    [Some b] or [None] for [never].  A conditional type whose checked type is a naked parameter
    distributes over unions, so it is [never] when the parameter is [never].  Constraints on
    type parameters are not modelled, nor are the compiler's limits on the depth of
    instantiation. *)
From Verif Require Import Base.

Section Tables.
  (** The tables of gen_arithmetic(size): [SuccTable] has the keys [0 .. size-1], [PredTable] the
      keys [1 .. size] (C40). *)
  Variable size : nat.

  (** util.ts:53 [Succ]. *)
  Definition Succ (T : option nat) : option nat :=
    match T with None => None | Some i => if i <? size then Some (S i) else None end.
  (** util.ts:54-58 [Pred]. *)
  Definition Pred (T : option nat) : option nat :=
    match T with
    | None => None
    | Some O => Some 0
    | Some (S i) => if S i <=? size then Some i else None
    end.

  (** util.ts:5 [Negate]. *)
  Definition Negate (A : option bool) : option bool := option_map negb A.
  (** util.ts:52 [Eq]: [A] literal, [B] any; a literal extends [never] never. *)
  Definition Eq (A B : option nat) : option bool :=
    match A with
    | None => None
    | Some a => Some match B with Some b => a =? b | None => false end
    end.

  (** util.ts:75-79 [GtImpl], by recursion on the literal [B] ([Pred] of a literal beyond the table
      is [never], and [GtImpl] of it is [never]). *)
  Fixpoint GtLit (A : option nat) (b : nat) : option bool :=
    match b with
    | O => Some true
    | S b' =>
        match A with
        | None => None
        | Some O => Some false
        | Some a => if S b' <=? size then GtLit (Pred A) b' else None
        end
    end.
  (** util.ts:75-79 [GtImpl]. *)
  Definition GtImpl (A B : option nat) : option bool := match B with None => None | Some b => GtLit A b end.

  (** util.ts:60-72 [Gte], [Gt], [Lte], [Lt]. *)
  Definition extends (A B : option nat) : bool := match A, B with Some a, Some b => a =? b | Some _, None => false | None, _ => true end.
  (** util.ts:60-62 [Gte]. *)
  Definition Gte (A B : option nat) : option bool :=
    match A with None => None | _ => if extends A B then Some true else GtImpl A B end.
  (** util.ts:63-65 [Gt]. *)
  Definition Gt (A B : option nat) : option bool :=
    match A with None => None | _ => if extends A B then Some false else GtImpl A B end.
  (** util.ts:67-69 [Lte]. *)
  Definition Lte (A B : option nat) : option bool :=
    match A with None => None | _ => if extends A B then Some true else Negate (GtImpl A B) end.
  (** util.ts:70-72 [Lt]. *)
  Definition Lt (A B : option nat) : option bool :=
    match A with None => None | _ => if extends A B then Some false else Negate (GtImpl A B) end.

  (** util.ts:81-83 [Add], by recursion on the literal [B]. *)
  Fixpoint AddLit (A : option nat) (b : nat) : option nat :=
    match b with
    | O => A
    | S b' => if S b' <=? size then AddLit (Succ A) b' else None
    end.
  (** util.ts:81-83 [Add]. *)
  Definition Add (A B : option nat) : option nat := match B with None => None | Some b => AddLit A b end.
  (** util.ts:85-87 [Sub]. *)
  Fixpoint SubLit (A : option nat) (b : nat) : option nat :=
    match b with
    | O => A
    | S b' => if S b' <=? size then SubLit (Pred A) b' else None
    end.
  (** util.ts:85-87 [Sub]. *)
  Definition Sub (A B : option nat) : option nat := match B with None => None | Some b => SubLit A b end.

  (** util.ts:7-14 [Reverse]. *)
  Fixpoint ReverseImpl {X} (T State : list X) : list X := match T with A :: B => ReverseImpl B (A :: State) | [] => State end.
  (** util.ts:7 [Reverse]. *)
  Definition Reverse {X} (T : list X) : list X := ReverseImpl T [].

  (** util.ts:89-93 [PopNStack]; [None] is [never]. *)
  Fixpoint PopNStack {X} (arr : list X) (n : nat) {struct n} : option (list X) :=
    match n with
    | O => Some arr
    | S n' => match arr with
              | _ :: tail => if S n' <=? size then PopNStack tail n' else None
              | [] => None
              end
    end.
  (** util.ts:95-107 [PopNStackWithValue]. *)
  Fixpoint PopNStackWithValueImpl {X} (arr : list X) (n : nat) (ret : list X) {struct n} : option (list X * list X) :=
    match n with
    | O => Some (arr, ret)
    | S n' => match arr with
              | head :: tail => if S n' <=? size then PopNStackWithValueImpl tail n' (head :: ret) else None
              | [] => None
              end
    end.
  (** util.ts:95-98 [PopNStackWithValue]. *)
  Definition PopNStackWithValue {X} (arr : list X) (n : nat) : option (list X * list X) := PopNStackWithValueImpl arr n [].

  (** A string type: a literal, [undefined], or [never].  Strings are sequences of UTF-16 units. For util.ts:24-50. *)
  Inductive tstr := TLit (s : list N) | TUndefined | TNever.
  (** util.ts:41-50 [CutString], by recursion on the string. *)
  Fixpoint CutString (str ret : list N) (len i : option nat) : tstr :=
    match i with
    | None => TNever
    | Some _ =>
        if extends i len then TLit ret
        else match str with
             | char :: rest => CutString rest (ret ++ [char]) len (Succ i)
             | [] => TLit ret
             end
    end.
  (** util.ts:30-39 [SubstringImpl]. *)
  Fixpoint SubstringImpl (str : list N) (start end_ iStart : option nat) : tstr :=
    match iStart with
    | None => TNever
    | Some _ =>
        if extends iStart start then CutString str [] end_ (Some 0)
        else match str with
             | _ :: rest => SubstringImpl rest start (Pred end_) (Succ iStart)
             | [] => TUndefined
             end
    end.
  (** util.ts:24-28 [Substring]. *)
  Definition Substring (str : list N) (start end_ : option nat) : tstr := SubstringImpl str start end_ (Some 0).

  (** util.ts:20-22 [IsWhitespace]. *)
  Definition IsWhitespace (c : N) : bool := (c =? 32)%N || (c =? 10)%N.
End Tables.
