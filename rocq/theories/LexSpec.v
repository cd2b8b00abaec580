(** Specification of tokenisation, independent of the automata: relative to a notion of
    "live prefix" and of "token [i] accepts this text". *)
From Verif Require Import Base Regex Overlap.

Definition white (c : N) : Prop := (c = 10 \/ c = 32)%N.

Section Spec.
  (** [live w]: [w] can still be (the beginning of) a token. *)
  Variable live : list N -> Prop.
  (** [acc w i]: the text [w] is token [i] (after ties have been resolved). *)
  Variable acc : list N -> nat -> Prop.

  Definition no_match (s : list N) : Prop :=
    forall u v i, s = u ++ v -> u <> [] -> ~ acc u i.

  Definition longest (u : list N) (i : nat) (s : list N) : Prop :=
    u <> [] /\ acc u i /\
    forall u' v' i', s = u' ++ v' -> acc u' i' -> length u' <= length u.

  (** White space that cannot begin a token. *)
  Definition skippable (c : N) : Prop := white c /\ ~ live [c].

  (** What the code computes: [Tokenize pos s ts rest], with the position, the token and the
      text of every token, and the part of the input that is not tokenised. *)
  Inductive Tokenize : nat -> list N -> list (nat * nat * list N) -> list N -> Prop :=
  | TkEnd pos : Tokenize pos [] [] []
  | TkTok pos u v i ts r :
      longest u i (u ++ v) -> ~ live (u ++ v) ->
      Tokenize (pos + length u) v ts r ->
      Tokenize pos (u ++ v) ((pos, i, u) :: ts) r
  | TkLast pos u v i :
      longest u i (u ++ v) -> live (u ++ v) -> Tokenize pos (u ++ v) [(pos, i, u)] v
  | TkSkip pos c v ts r :
      skippable c -> no_match (c :: v) -> Tokenize (S pos) v ts r -> Tokenize pos (c :: v) ts r
  | TkStop pos c v : no_match (c :: v) -> ~ skippable c -> Tokenize pos (c :: v) [] (c :: v).

  (** How reading ends, with [k] characters of the input not looked at, when the tokens are [ts]
      and [r] is not tokenised: at the end of the input, in which case [r] may be the beginning of
      a token, or continue the last token; or at the first character with which the text is no
      beginning of a token any more. *)
  Definition unfinished (s : list N) (ts : list (nat * nat * list N)) (r : list N) : Prop :=
    r = [] \/ live r \/ exists ts' pre i u, ts = ts' ++ [(length pre, i, u)] /\ s = pre ++ u ++ r /\ live (u ++ r).
  Definition halts (s : list N) (ts : list (nat * nat * list N)) (r : list N) (k : nat) : Prop :=
    (k = 0 /\ unfinished s ts r) \/
    (~ unfinished s ts r /\ exists u x v, r = u ++ x :: v /\ k = S (length v) /\ (u = [] \/ live u) /\ ~ live (u ++ [x])).

  (** The reference maximal-munch tokeniser: as above, but it never gives up after a token. *)
  Inductive Munch : nat -> list N -> list (nat * nat * list N) -> list N -> Prop :=
  | MEnd pos : Munch pos [] [] []
  | MTok pos u v i ts r :
      longest u i (u ++ v) -> Munch (pos + length u) v ts r ->
      Munch pos (u ++ v) ((pos, i, u) :: ts) r
  | MSkip pos c v ts r :
      skippable c -> no_match (c :: v) -> Munch (S pos) v ts r -> Munch pos (c :: v) ts r
  | MStop pos c v : no_match (c :: v) -> ~ skippable c -> Munch pos (c :: v) [] (c :: v).
End Spec.

(** The input is white space and lexemes, in order, then the rest. *)
Inductive Layout : nat -> list N -> list (nat * list N) -> list N -> Prop :=
| LayEnd pos r : Layout pos r [] r
| LayTok pos u v ts r : u <> [] -> Layout (pos + length u) v ts r -> Layout pos (u ++ v) ((pos, u) :: ts) r
| LaySkip pos c v ts r : white c -> Layout (S pos) v ts r -> Layout pos (c :: v) ts r.

(** ** The languages of a list of token definitions *)

(** [w] is the beginning of some token. *)
Definition viable (hs : list hir) (w : list N) : Prop :=
  exists h v, In h hs /\ Lang h (w ++ v).

(** The first definition whose language contains [w]. *)
Definition first_match (hs : list hir) (w : list N) (i : nat) : Prop :=
  (exists h, nth_error hs i = Some h /\ Lang h w) /\
  forall j h, j < i -> nth_error hs j = Some h -> ~ Lang h w.

(** ** Conditions on the token definitions under which the DFA is exact *)

Definition covers (r : N * N) (c : N) : Prop := (fst r <= c < snd r)%N.

(** The character ranges (half-open) written in a regex. *)
Definition hir_label (h : hir) (m : N * N) : Prop :=
  exists x, subterm x h /\
    match x with
    | HLit c => m = (c, (c + 1)%N)
    | HClass rs => exists lo hi, In (lo, hi) rs /\ m = (lo, (hi + 1)%N)
    | _ => False
    end.

(** The same as a list. *)
Fixpoint written (h : hir) : list (N * N) :=
  match h with
  | HLit c => [(c, (c + 1)%N)]
  | HClass rs => map (fun r => (fst r, (snd r + 1)%N)) rs
  | HRep _ h => written h
  | HGroup h => written h
  | HConcat hs | HAlt hs => flat_map written hs
  | HEmpty | HAnchor | HWordBoundary => []
  end.

(** Each of the pieces the code cuts them into (C03, C04) lies inside or outside of every range. *)
Definition split_refines (hs : list hir) : Prop :=
  forall v, remove_overlap (set_of_list (flat_map written hs)) = Ok v ->
  forall r p c d, In r v -> In p (flat_map written hs) -> covers r c -> covers r d -> covers p c -> covers p d.

(** This is so when any two of the ranges are nested or disjoint. *)
Definition well_nested (hs : list hir) : Prop :=
  forall h h' a b, In h hs -> In h' hs -> hir_label h a -> hir_label h' b ->
    (forall c, ~ (covers a c /\ covers b c)) \/
    (forall c, covers a c -> covers b c) \/ (forall c, covers b c -> covers a c).

(** No empty alternation, class or range in it. *)
Definition productive (h : hir) : Prop :=
  forall x, subterm x h ->
    match x with
    | HAlt hs => hs <> []
    | HClass rs => rs <> [] /\ forall lo hi, In (lo, hi) rs -> (lo <= hi)%N
    | _ => True
    end.

(** Every byte is a character. *)
Definition ascii (s : list N) : Prop := Forall (fun c => (c < 128)%N) s.

(** Position and text of a token, without its number. *)
Definition drop_idx (x : nat * nat * list N) : nat * list N := (fst (fst x), snd x).
