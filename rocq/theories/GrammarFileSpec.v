(** What a grammar file says: specification for C51-C54.  The terminals and rules are those of
    /repo/src/parser/grammar.lalrpop, stated as languages and derivations. *)
From Coq Require Import Ascii String.
From Verif Require Import Base Grammar Text Lalr GrammarFile.
Local Open Scope list_scope.

(** White space (Unicode). *)
Definition space (c : N) : Prop :=
  (9 <= c <= 13 \/ c = 32 \/ c = 133 \/ c = 160 \/ c = 5760 \/ 8192 <= c <= 8202 \/ c = 8232 \/ c = 8233 \/ c = 8239 \/ c = 8287 \/ c = 12288)%N.

(** What may stand between quotes: backslashes and quotes only after a backslash, and a backslash
    only before one of them. *)
Inductive quotable : str -> Prop :=
| q_nil : quotable []
| q_back s : quotable s -> quotable (92 :: 92 :: s)%N
| q_quote s : quotable s -> quotable (92 :: 34 :: s)%N
| q_char c s : c <> 92%N -> c <> 34%N -> quotable s -> quotable (c :: s).

(** The kinds of text in a file, and the texts of each kind. *)
Inductive kind := KSpace | KStr | KId | KCode | KLit (t : gtok).
Definition written (k : kind) (u : str) : Prop :=
  match k with
  | KSpace => Forall space u
  | KStr => exists c, u = 34%N :: c ++ [34%N] /\ quotable c
  | KId => ident u
  | KCode => exists c, u = 40%N :: c ++ [41%N] /\ ~ In 10%N c
  | KLit t => In (u, t)
      [(tx "export", GExport); (tx "start", GStart); (tx "r", GR); (tx ":", GColon); (tx "=", GEq); (tx "=>", GArrow);
       (tx "[", GOpen); (tx "]", GClose); (tx "<", GLess); (tx ">", GMore); (tx ",", GComma)]
  end.
(** The token made of it; white space makes none. *)
Definition token_of (k : kind) (u : str) : list gtok :=
  match k with KSpace => [] | KStr => [GStr u] | KId => [GId u] | KCode => [GCode u] | KLit t => [t] end.
Definition literal (k : kind) : Prop := match k with KLit _ => True | _ => False end.

(** [u] is taken from the front of [u ++ v] as a [k]: nothing longer can be, and nothing of the same
    length takes precedence. *)
Definition taken (k : kind) (u v : str) : Prop :=
  u <> [] /\ written k u /\
  forall k' u' v', u' ++ v' = u ++ v -> written k' u' -> length u' < length u \/ (length u' = length u /\ (literal k' -> literal k)).
Inductive Tokens : str -> list gtok -> Prop :=
| toks_nil : Tokens [] []
| toks_cons k u v ts : taken k u v -> Tokens v ts -> Tokens (u ++ v) (token_of k u ++ ts).

(** The rules of grammar.lalrpop:6-63, with what their actions build. *)
Inductive Symbol_ : list gtok -> isym -> Prop :=
| sy_str c : Symbol_ [GStr (34%N :: c ++ [34%N])] (IStr c)
| sy_regex c : Symbol_ [GR; GStr (34%N :: c ++ [34%N])] (IReg c)
| sy_ident n : Symbol_ [GId n] (INon n).
Inductive Named_ : list gtok -> isym -> Prop :=
| na_named n ts x : Symbol_ ts x -> Named_ (GLess :: GId n :: GColon :: ts ++ [GMore]) (INamed (Some n) x)
| na_plain ts x : Symbol_ ts x -> Named_ ts x.
Inductive Names_ : list gtok -> list isym -> Prop :=
| ns_one ts x : Named_ ts x -> Names_ ts [x]
| ns_more ts x ts' xs : Named_ ts x -> Names_ ts' xs -> Names_ (ts ++ ts') (x :: xs).
Inductive Body_ : list gtok -> abody -> Prop :=
| bo ts xs c : Names_ ts xs -> Body_ (ts ++ [GArrow; GCode (40%N :: c ++ [41%N])]) (ABody xs c).
(** Bodies separated by commas; a comma may stand after the last. *)
Inductive Bodies_ : list gtok -> list abody -> Prop :=
| bs_nil : Bodies_ [] []
| bs_last ts b : Body_ ts b -> Bodies_ ts [b]
| bs_more ts b ts' bs : Body_ ts b -> Bodies_ ts' bs -> Bodies_ (ts ++ GComma :: ts') (b :: bs).
Inductive Rule_ : list gtok -> aprod -> Prop :=
| ru front start n c ts bs : In (front, start) [([], false); ([GExport], false); ([GExport; GStart], true)] -> Bodies_ ts bs ->
    Rule_ (front ++ [GId n; GColon; GCode (40%N :: c ++ [41%N]); GEq; GOpen] ++ ts ++ [GClose]) (AProd n bs start c).
Inductive Program_ : list gtok -> list aprod -> Prop :=
| pg_one ts p : Rule_ ts p -> Program_ ts [p]
| pg_more ts p ts' ps : Rule_ ts p -> Program_ ts' ps -> Program_ (ts ++ ts') (p :: ps).

Definition file_says (text : str) (ast : list aprod) : Prop := exists ts, Tokens text ts /\ Program_ ts ast.

(** The ASTs that can be written down: the names are identifiers and none of the three words of the
    language, literals and regexes are [quotable], and code is on one line. *)
Definition keyword (s : str) : Prop := In s [tx "export"; tx "start"; tx "r"].
Definition name_ok (s : str) : Prop := ident s /\ ~ keyword s.
Definition sym_ok (x : isym) : Prop :=
  match x with IStr s | IReg s => quotable s | INon n => name_ok n | _ => False end.
Definition named_ok (x : isym) : Prop :=
  match x with INamed (Some n) ty => name_ok n /\ sym_ok ty | _ => sym_ok x end.
Definition writable (ast : list aprod) : Prop :=
  ast <> [] /\
  forall p, In p ast -> name_ok (ap_name p) /\ ~ In 10%N (ap_ts p) /\
    forall b, In b (ap_bodies p) -> ab_syms b <> [] /\ Forall named_ok (ab_syms b) /\ ~ In 10%N (ab_fn b).

(** ** Layout *)

(** The text of a token, and the tokens there are. *)
Definition text_of (t : gtok) : str :=
  match t with
  | GExport => tx "export" | GStart => tx "start" | GR => tx "r" | GColon => tx ":" | GEq => tx "=" | GArrow => tx "=>"
  | GOpen => tx "[" | GClose => tx "]" | GLess => tx "<" | GMore => tx ">" | GComma => tx ","
  | GStr s | GId s | GCode s => s
  end.
Definition proper (t : gtok) : Prop :=
  match t with
  | GStr s => exists c, s = 34%N :: c ++ [34%N] /\ quotable c
  | GId s => name_ok s
  | GCode s => exists c, s = 40%N :: c ++ [41%N] /\ ~ In 10%N c
  | _ => True
  end.
(** The text after a token does not continue it: a word stops, [=] is not followed by [>], and no
    closing parenthesis stands on the same line after a piece of code. *)
Definition apart (t : gtok) (after : str) : Prop :=
  match t with
  | GExport | GStart | GR | GId _ => forall c v, after = c :: v -> ~ ident_rest c
  | GEq => forall v, after <> 62%N :: v
  | GCode _ => forall v w, after = v ++ 41%N :: w -> In 10%N v
  | _ => True
  end.
(** Tokens with white space between them. *)
Inductive Lay : str -> list gtok -> Prop :=
| lay_nil : Lay [] []
| lay_space c v ts : space c -> Lay v ts -> Lay (c :: v) ts
| lay_token t v ts : proper t -> apart t v -> Lay v ts -> Lay (text_of t ++ v) (t :: ts).
