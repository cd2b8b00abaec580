(** Specification for C77: the texts the grammar file /repo/basic_lisp.tlalr describes, written
    down without its grammar: lists of the word add, of numbers, and of such lists. *)
From Coq Require Import Ascii String.
From Verif Require Import Base Text Regex LexSpec.
Local Open Scope list_scope.

Inductive sexp := XAdd | XInt (d : list N) | XList (es : list sexp).

Definition digit (c : N) : Prop := (48 <= c <= 57)%N.
Definition is_int (e : sexp) : bool := match e with XInt _ => true | _ => false end.

(** [Writes e w]: the text [w] is a way to write [e].  A number does not begin with 0.  A list has
    at least one element; white space is free, but needed between two numbers. *)
Inductive Writes : sexp -> list N -> Prop :=
| WAdd : Writes XAdd (tx "add")
| WInt c ds : (49 <= c <= 57)%N -> Forall digit ds -> Writes (XInt (c :: ds)) (c :: ds)
| WList es a w b : Forall white a -> WritesAll es w -> Forall white b -> Writes (XList es) (tx "(" ++ a ++ w ++ b ++ tx ")")
with WritesAll : list sexp -> list N -> Prop :=
| WOne e w : Writes e w -> WritesAll [e] w
| WMore e u a e' es w : Writes e u -> Forall white a -> WritesAll (e' :: es) w -> (a = [] -> is_int e = true -> is_int e' = false) ->
    WritesAll (e :: e' :: es) (u ++ a ++ w).

(** What the Rust parser does not look at: white space, and then anything that begins neither with
    white space nor with a text of one of the four tokens. *)
Definition unreadable (r : list N) : Prop :=
  match r with
  | [] => True
  | c :: r' => c <> 40%N /\ c <> 41%N /\ ~ (49 <= c <= 57)%N /\ ~ white c /\ forall v, r <> tx "add" ++ v
  end.
Definition ignored (s : list N) : Prop := exists b r, s = b ++ r /\ Forall white b /\ unreadable r.
(** What the type-level lexer does not look at: white space, and the beginning of the word add. *)
Definition ignored_ts (s : list N) : Prop := exists b r, s = b ++ r /\ Forall white b /\ (r = [] \/ r = tx "a" \/ r = tx "ad").

(** The rules used, in the order of the reductions: 1 for lists, 2 and 3 for their elements, 4, 5
    and 6 for an element that is a list, the word and a number. *)
Fixpoint steps (e : sexp) : list nat :=
  match e with
  | XAdd => [5]
  | XInt _ => [6]
  | XList es => flat_map steps es ++ 3 :: repeat 2 (pred (length es)) ++ [1; 4]
  end.
Definition list_steps (es : list sexp) : list nat := flat_map steps es ++ 3 :: repeat 2 (pred (length es)) ++ [1].

(** The texts of the tokens. *)
Fixpoint texts (e : sexp) : list (list N) :=
  match e with
  | XAdd => [tx "add"]
  | XInt d => [d]
  | XList es => tx "(" :: flat_map texts es ++ [tx ")"]
  end.

(** Values of TypeScript, and the one the actions of the file describe for a list. *)
Inductive js := JStr (s : list N) | JArr (l : list js) | JObj (l : list (list N * js)).
Fixpoint value (e : sexp) : js :=
  match e with
  | XAdd => JObj [(tx "kind", JStr (tx "symbol")); (tx "value", JStr (tx "add"))]
  | XInt d => JObj [(tx "kind", JStr (tx "int")); (tx "value", JStr d)]
  | XList es => JObj [(tx "kind", JStr (tx "sexpr")); (tx "sexpr", JObj [(tx "kind", JStr (tx "SExpr")); (tx "exprs", JArr (map value es))])]
  end.
Definition list_value (es : list sexp) : js := JObj [(tx "kind", JStr (tx "SExpr")); (tx "exprs", JArr (map value es))].
