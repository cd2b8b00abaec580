(** A reader of TypeScript text: tokens, object and array types, conditional types.  It is the
    specification of what the generators write; nothing in it comes from the repository. *)
From Coq Require Import Ascii String.
From Verif Require Import Base.
Local Open Scope N_scope.

(** ** Tokens *)

Inductive tok :=
| TNum (n : N)                 (* decimal number *)
| TWord (w : list N)           (* identifier or keyword *)
| TStr (q : N) (s : list N)    (* string or template, with its quote *)
| TPun (c : N)                 (* one punctuation character *)
| TNl.                         (* line break *)

Definition is_digit (c : N) : bool := (48 <=? c) && (c <=? 57).
(** Letters, underscore, dollar; every character beyond ASCII counts as a letter. *)
Definition is_letter (c : N) : bool :=
  (65 <=? c) && (c <=? 90) || (97 <=? c) && (c <=? 122) || (c =? 95) || (c =? 36) || (128 <=? c).
Definition is_quote (c : N) : bool := (c =? 34) || (c =? 39) || (c =? 96).
Definition is_space (c : N) : bool := (c =? 32) || (c =? 9) || (c =? 13).

(** What has been read of a token.  Escapes other than line feed, tab, carriage return and a
    character standing for itself are not read. *)
Inductive sst :=
| SNone
| SNum (n : N)
| SWord (w : list N)
| SStr (q : N) (s : list N)
| SEsc (q : N) (s : list N)
| SSlash
| SComment (star : bool)
| SLine
| SBad.

Definition sstart (c : N) : list tok * sst :=
  if is_digit c then ([], SNum (c - 48))
  else if is_letter c then ([], SWord [c])
  else if is_quote c then ([], SStr c [])
  else if c =? 47 then ([], SSlash)
  else if c =? 10 then ([TNl], SNone)
  else if is_space c then ([], SNone)
  else if c <? 32 then ([], SBad)
  else ([TPun c], SNone).

Definition sstep (s : sst) (c : N) : list tok * sst :=
  match s with
  | SNone => sstart c
  | SNum n =>
      if is_digit c then ([], SNum (10 * n + (c - 48)))
      else if is_letter c then ([], SBad)
      else let '(l, s') := sstart c in (TNum n :: l, s')
  | SWord w =>
      if is_letter c || is_digit c then ([], SWord (w ++ [c]))
      else let '(l, s') := sstart c in (TWord w :: l, s')
  | SStr q a =>
      if c =? q then ([TStr q a], SNone)
      else if c =? 92 then ([], SEsc q a)
      else if ((c =? 10) || (c =? 13)) && negb (q =? 96) then ([], SBad)
      else ([], SStr q (a ++ [c]))
  | SEsc q a =>
      if existsb (N.eqb c) [98; 102; 118; 48; 117; 120; 13; 10] then ([], SBad)
      else ([], SStr q (a ++ [if c =? 110 then 10 else if c =? 116 then 9 else if c =? 114 then 13 else c]))
  | SSlash =>
      if c =? 42 then ([], SComment false)
      else if c =? 47 then ([], SLine)
      else let '(l, s') := sstart c in (TPun 47 :: l, s')
  | SComment star =>
      if star && (c =? 47) then ([], SNone) else ([], SComment (c =? 42))
  | SLine => if c =? 10 then ([TNl], SNone) else ([], SLine)
  | SBad => ([], SBad)
  end.

Fixpoint scan (s : sst) (t : list N) : list tok * sst :=
  match t with
  | [] => ([], s)
  | c :: t => let '(l, s1) := sstep s c in let '(l', s2) := scan s1 t in (l ++ l', s2)
  end.

(** The tokens of a complete text. *)
Definition toks (t : list N) : option (list tok) :=
  let '(l, s) := scan SNone t in
  match s with
  | SNone | SLine => Some l
  | SNum n => Some (l ++ [TNum n])
  | SWord w => Some (l ++ [TWord w])
  | SSlash => Some (l ++ [TPun 47])
  | _ => None
  end.

(** What the text [s] between two quotes [q] denotes, if it stays inside the string. *)
Definition unq (q : N) (s : list N) : option (list N) :=
  match scan (SStr q []) s with
  | ([], SStr q' s') => if q' =? q then Some s' else None
  | _ => None
  end.

(** ** Object and tuple types made of literals *)

Inductive key := KNum (n : N) | KName (s : list N).
Inductive value :=
| VNum (n : N)
| VStr (s : list N)
| VWord (w : list N)
| VObj (l : list (key * value))
| VArr (l : list value).

(** [Val ts v rest]: the tokens [ts] begin with a type that denotes [v], followed by [rest].
    Members of an object are ended by a line break, a semicolon, a comma or the closing brace. *)
Inductive Key : tok -> key -> Prop :=
| k_num n : Key (TNum n) (KNum n)
| k_word w : Key (TWord w) (KName w)
| k_str s : Key (TStr 34 s) (KName s)
| k_str' s : Key (TStr 39 s) (KName s).
Inductive Sep : list tok -> list tok -> Prop :=
| sep_nl r : Sep (TNl :: r) r
| sep_semi r : Sep (TPun 59 :: r) r
| sep_comma r : Sep (TPun 44 :: r) r
| sep_end r : Sep (TPun 125 :: r) (TPun 125 :: r).
Inductive Val : list tok -> value -> list tok -> Prop :=
| v_num n r : Val (TNum n :: r) (VNum n) r
| v_str s r : Val (TStr 34 s :: r) (VStr s) r
| v_str' s r : Val (TStr 39 s :: r) (VStr s) r
| v_word w r : Val (TWord w :: r) (VWord w) r
| v_obj ts l r : Mem ts l r -> Val (TPun 123 :: ts) (VObj l) r
| v_arr ts l r : Elems ts l r -> Val (TPun 91 :: ts) (VArr l) r
with Mem : list tok -> list (key * value) -> list tok -> Prop :=
| m_end r : Mem (TPun 125 :: r) [] r
| m_nl ts l r : Mem ts l r -> Mem (TNl :: ts) l r
| m_cons t k ts v r r' l r'' : Key t k -> Val ts v r -> Sep r r' -> Mem r' l r'' ->
    Mem (t :: TPun 58 :: ts) ((k, v) :: l) r''
with Elems : list tok -> list value -> list tok -> Prop :=
| e_end r : Elems (TPun 93 :: r) [] r
| e_nl ts l r : Elems ts l r -> Elems (TNl :: ts) l r
| e_cons ts v r l r' : Val ts v (TPun 44 :: r) -> Elems r l r' -> Elems ts (v :: l) r'
| e_last ts v r : Val ts v (TPun 93 :: r) -> Elems ts [v] r.

(** A declaration [export type NAME = TYPE]. *)
Definition word (s : string) : tok := TWord (map N_of_ascii (list_ascii_of_string s)).
Inductive Decl : list tok -> list N -> value -> list tok -> Prop :=
| decl_nl ts n v r : Decl ts n v r -> Decl (TNl :: ts) n v r
| decl_semi ts n v r : Decl ts n v r -> Decl (TPun 59 :: ts) n v r
| decl_exp n ts v r : Val ts v r -> Decl (word "export"%string :: word "type"%string :: TWord n :: TPun 61 :: ts) n v r
| decl_type n ts v r : Val ts v r -> Decl (word "type"%string :: TWord n :: TPun 61 :: ts) n v r.

(** A file of declarations, each ended by a line break or semicolon. *)
Definition blank (t : tok) : bool := match t with TNl => true | TPun c => c =? 59 | _ => false end.
Inductive Decls : list tok -> list (list N * value) -> Prop :=
| ds_end ts : forallb blank ts = true -> Decls ts []
| ds_last ts n v : Decl ts n v [] -> Decls ts [(n, v)]
| ds_cons ts n v b r l : Decl ts n v (b :: r) -> blank b = true -> Decls r l -> Decls ts ((n, v) :: l).

(** Property access [T[k]]; a type with two members of one name is an error. *)
Definition keys (l : list (key * value)) : list key := map fst l.
Definition member (v : value) (k : key) (v' : value) : Prop :=
  exists l, v = VObj l /\ NoDup (keys l) /\ In (k, v') l.
Definition has_key (v : value) (k : key) : Prop := exists v', member v k v'.

(** ** Conditional types *)

Inductive ctype := CAtom (a : list tok) | CCond (c : list tok) (t e : ctype).

(** A stretch of tokens without question mark, colon, semicolon or line break outside brackets;
    it ends at one of these or at a closing bracket that was not opened in it. *)
Definition opens (t : tok) : bool := match t with TPun c => (c =? 40) || (c =? 91) || (c =? 123) | _ => false end.
Definition closes (t : tok) : bool := match t with TPun c => (c =? 41) || (c =? 93) || (c =? 125) | _ => false end.
Definition stops (t : tok) : bool := match t with TPun c => (c =? 63) || (c =? 58) || (c =? 59) | TNl => true | _ => false end.
Fixpoint stretch (depth : nat) (ts : list tok) : list tok * list tok :=
  match ts with
  | [] => ([], [])
  | t :: r =>
      match depth with
      | O => if stops t || closes t then ([], ts)
             else let '(a, r') := stretch (if opens t then 1 else 0) r in (t :: a, r')
      | S d => let '(a, r') := stretch (if opens t then S depth else if closes t then d else depth) r in (t :: a, r')
      end
  end.

Inductive CT : list tok -> ctype -> list tok -> Prop :=
| ct_atom ts a r : stretch 0 ts = (a, r) -> a <> [] -> (forall r', r <> TPun 63 :: r') -> CT ts (CAtom a) r
| ct_cond ts a r1 t r2 e r3 : stretch 0 ts = (a, TPun 63 :: r1) -> a <> [] -> CT r1 t (TPun 58 :: r2) -> CT r2 e r3 ->
    CT ts (CCond a t e) r3.

(** Which branch is taken, given which conditions hold. *)
Fixpoint ceval (holds : list tok -> bool) (c : ctype) : list tok :=
  match c with CAtom a => a | CCond c t e => if holds c then ceval holds t else ceval holds e end.
