(** The grammar file /repo/basic_lisp.tlalr as an AST. *)
From Coq Require Import String.
From Verif Require Import Base Regex Nfa Dfa Lex Grammar LexGrammar Text.
Local Open Scope list_scope.

(** basic_lisp.tlalr:1-14. *)
Definition lisp_ast : list aprod := [
  AProd (tx "SExpr") [ABody [IStr (tx "("); INamed (Some (tx "exprs")) (INon (tx "Exprs")); IStr (tx ")")] (tx "{ kind: ""SExpr"", exprs: exprs }")]
    true (tx "{ kind: ""SExpr"", exprs: Exprs }");
  AProd (tx "Exprs") [ABody [INamed (Some (tx "eee")) (INon (tx "Expr")); INamed (Some (tx "es")) (INon (tx "Exprs"))] (tx "[eee, ...es]");
                      ABody [INamed (Some (tx "eee")) (INon (tx "Expr"))] (tx "[eee]")] false (tx "Expr[]");
  AProd (tx "Expr") [ABody [INamed (Some (tx "sexpr")) (INon (tx "SExpr"))] (tx "{ kind: ""sexpr"", sexpr: sexpr }");
                     ABody [INamed (Some (tx "str")) (IStr (tx "add"))] (tx "{ kind: ""symbol"", value: str }");
                     ABody [INamed (Some (tx "int")) (IReg (tx "[1-9]+[0-9]*"))] (tx "{ kind: ""int"", value: int }")]
    false (tx "{ kind: ""symbol"", value: ""add"" } | { kind: ""int"", value: string } | { kind: ""sexpr"", sexpr: SExpr }")].

(** The only regex of that file, as regex-syntax parses it. parse_gen.rs:675-711 and lalr.rs:306 use that file. *)
Definition lisp_regex (s : str) : option hir :=
  if eqb s (tx "[1-9]+[0-9]*") then Some (HConcat [HRep OneOrMore (HClass [(49, 57)%N]); HRep ZeroOrMore (HClass [(48, 57)%N])]) else None.
