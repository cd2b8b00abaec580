(** Modules and declarations of TypeScript text, and what ts/parse.ts finds in a file of generated
    parser tables: specification, read off the tokens. *)
From Coq Require Import Ascii String.
From Verif Require Import Base Text TsText.
Local Open Scope list_scope.

(** The tokens that can be read from the beginning of a text. *)
Definition readable_tokens (text : list N) : list tok := fst (scan SNone text).

Definition is_word (w : list N) (t : tok) : bool := match t with TWord v => eqb v w | _ => false end.
(** Nesting of brackets. *)
Definition next_depth (d : nat) (t : tok) : nat := if opens t then S d else if closes t then pred d else d.

(** What follows [kw NAME] outside brackets, at every place where it occurs. *)
Fixpoint declared (kw n : list N) (d : nat) (ts : list tok) : list (list tok) :=
  match ts with
  | [] => []
  | t :: r =>
      (if (d =? 0) && is_word kw t then match r with TWord m :: r' => if eqb m n then [r'] else [] | _ => [] end else []) ++
      declared kw n (next_depth d t) r
  end.
(** Up to the bracket that closes. *)
Fixpoint upto (d : nat) (ts : list tok) : list tok :=
  match ts with
  | [] => []
  | t :: r => match d with
              | O => if closes t then [] else t :: upto (next_depth d t) r
              | S _ => t :: upto (next_depth d t) r
              end
  end.

(** The only module of this name has this body. *)
Definition Module (ts : list tok) (n : list N) (body : list tok) : Prop :=
  exists r, declared (tx "module") n 0 ts = [TPun 123 :: r] /\ body = upto 0 r.
(** The only type of this name is declared as the literal type [v]. *)
Definition ends (r : list tok) : Prop := match r with [] => True | t :: _ => blank t = true end.
Definition Declares (body : list tok) (n : list N) (v : value) : Prop :=
  exists r r', declared (tx "type") n 0 body = [TPun 61 :: r] /\ Val r v r' /\ ends r'.

(** ** The tables *)

Inductive taction := TShift (s : N) | TReduce (p : N) | TAccept.
(** [Tokens] (kind and value), [Productions] (name and token indices), [Action], [Goto] and
    [TokenKindToIdx] of parse_state2.gen.ts, as ts/parse.ts imports them. *)
Record parse_tables := ParseTables {
  pt_tokens : list (N * (list N * option (list N)));
  pt_prods : list (N * (list N * list N));
  pt_action : list (N * list (N * taction));
  pt_goto : list (N * list (list N * N));
  pt_kinds : list (list N * N) }.

Definition vpt (x : list N * option (list N)) : value :=
  VObj ((KName (tx "kind"), VStr (fst x)) :: match snd x with Some v => [(KName (tx "value"), VStr v)] | None => [] end).
Definition vprod (x : list N * list N) : value := VObj [(KName (tx "name"), VStr (fst x)); (KName (tx "tokens"), VArr (map VNum (snd x)))].
Definition vaction (a : taction) : value :=
  VObj [match a with TShift s => (KName (tx "shift"), VNum s) | TReduce p => (KName (tx "reduce"), VNum p) | TAccept => (KName (tx "accept"), VWord (tx "true")) end].
Definition num_obj {A} (f : A -> value) (l : list (N * A)) : value := VObj (map (fun e => (KNum (fst e), f (snd e))) l).
Definition name_obj {A} (f : A -> value) (l : list (list N * A)) : value := VObj (map (fun e => (KName (fst e), f (snd e))) l).

(** The text declares these tables, every member once. *)
Definition ReadParse (text : list N) (P : parse_tables) : Prop :=
  exists body, Module (readable_tokens text) (tx "type_defs") body /\
  Declares body (tx "Tokens") (num_obj vpt (pt_tokens P)) /\ NoDup (map fst (pt_tokens P)) /\
  Declares body (tx "Productions") (num_obj vprod (pt_prods P)) /\ NoDup (map fst (pt_prods P)) /\
  Declares body (tx "Action") (num_obj (num_obj vaction) (pt_action P)) /\ NoDup (map fst (pt_action P)) /\
    (forall s row, In (s, row) (pt_action P) -> NoDup (map fst row)) /\
  Declares body (tx "Goto") (num_obj (name_obj VNum) (pt_goto P)) /\ NoDup (map fst (pt_goto P)) /\
    (forall s row, In (s, row) (pt_goto P) -> NoDup (map fst row)) /\
  Declares body (tx "TokenKindToIdx") (name_obj VNum (pt_kinds P)) /\ NoDup (map fst (pt_kinds P)).

(** ** Code that is copied into the generated file *)

(** The tokens of a text that can be followed by more on the same line. *)
Definition code_tokens (t : list N) : option (list tok) :=
  match scan SNone t with
  | (l, SNone) => Some l
  | (l, SNum n) => Some (l ++ [TNum n])
  | (l, SWord w) => Some (l ++ [TWord w])
  | _ => None
  end.
(** Brackets are closed where they were opened. *)
Fixpoint level (d : nat) (ts : list tok) : option nat :=
  match ts with
  | [] => Some d
  | t :: r => if opens t then level (S d) r
              else if closes t then match d with O => None | S d' => level d' r end
              else level d r
  end.
(** The tokens outside brackets. *)
Fixpoint outer (d : nat) (ts : list tok) : list tok :=
  match ts with
  | [] => []
  | t :: r => (if d =? 0 then [t] else []) ++ outer (next_depth d t) r
  end.
(** Code of an action: whole tokens, brackets balanced.  A type also does not begin another
    declaration. *)
Definition tame (text : list N) : Prop := exists ts, code_tokens text = Some ts /\ level 0 ts = Some 0.
Definition tame_type (text : list N) : Prop :=
  exists ts, code_tokens text = Some ts /\ level 0 ts = Some 0 /\
    forall t, In t (outer 0 ts) -> is_word (tx "type") t = false /\ is_word (tx "module") t = false.
