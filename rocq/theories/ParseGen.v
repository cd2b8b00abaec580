(** Model of /repo/src/codegen/parse_gen.rs: the generated parser tables and actions, as text. *)
From Coq Require Import String.
From Verif Require Import Base Text Regex Nfa Dfa Lex Grammar First Item Table Lalr LexGen.
Local Open Scope list_scope.

(** parse_gen.rs:61-71 [ActionImplParam] and [NamedActionImplParam]. *)
Inductive aparam := PNamed (name : str) (param : aparam) | PNon (s : str) | PStr (s : str) | PReg (s : str).

(** parse_gen.rs:580-599 [from_input_symbols]; [name.unwrap()] is evaluated first. *)
Fixpoint from_input_symbol (x : isym) : res (option aparam) :=
  match x with
  | IStr s => Ok (Some (PStr s))
  | INon n => Ok (Some (PNon n))
  | IReg r => Ok (Some (PReg r))
  | INamed None _ => Panic PUnwrapNone
  | INamed (Some n) ty =>
      let* o := from_input_symbol ty in
      Ok match o with Some p => Some (PNamed n p) | None => None end
  | IEps | IEof => Ok None
  end.

(** parse_gen.rs:47-59 [Action] and [ActionImpl], which hold the same index and name; [pop_amount] is
    the number of inputs. *)
Record gaction := GAction { ga_name : str; ga_idx : nat; ga_code : str; ga_inputs : list aparam }.
(** parse_gen.rs:115. *)
Definition pop_amount (a : gaction) : nat := length (ga_inputs a).

(** parse_gen.rs:102-106: [filter_map]. *)
Fixpoint params_of (l : list isym) : res (list aparam) :=
  match l with
  | [] => Ok []
  | x :: l => let* o := from_input_symbol x in let* ps := params_of l in Ok (match o with Some p => p :: ps | None => ps end)
  end.
(** parse_gen.rs:95: all bodies with the names of their productions. *)
Definition all_bodies (ast : list aprod) : list (str * abody) :=
  flat_map (fun p => map (fun b => (ap_name p, b)) (ap_bodies p)) ast.
(** parse_gen.rs:92-119. *)
Definition gactions (ast : list aprod) : res (list gaction) :=
  mapM (fun ib => let* ps := params_of (ab_syms (snd (snd ib))) in
                  Ok (GAction (fst (snd ib)) (1 + fst ib) (ab_fn (snd (snd ib))) ps)) (enum (all_bodies ast)).
(** parse_gen.rs:79-90 [symbol_variants]. *)
Definition variants (ast : list aprod) : list (str * str) := fold_left (fun m p => map_insert (ap_name p) (ap_ts p) m) ast [].

(** ** The type definitions *)

(** parse_gen.rs:166-174. *)
Definition symbols_text (ast : list aprod) : list N :=
  tx "export type Symbol = { kind: ""token"", token: L.Token }" ++
  flat_map (fun p => tx "| { kind: """ ++ ap_name p ++ tx """, value: actions." ++ ap_name p ++ tx " }") ast ++
  tx "

".

(** parse_gen.rs:191-208: one entry. *)
Definition token_text (x : nat * sym) : res (list N) :=
  let entry (kind value : list N) := Ok (tx "
                " ++ decn (fst x) ++ tx ": { kind: """ ++ kind ++ tx """, value: """ ++ value ++ tx """ }") in
  match snd x with
  | SStr s => entry (tx "strlit") s
  | SNon n => entry (tx "nonterminal") n
  | SReg r => entry (tx "regex") r
  | SEps => Panic PTodo
  | SEof => Ok (tx "
" ++ decn (fst x) ++ tx ": { kind: ""eof"" }")
  end.
(** parse_gen.rs:176-211. *)
Definition tokens_text (g : grammar) : res (list N) :=
  let* l := mapM token_text (enum (g_tokens g)) in
  Ok (tx "
export type Token =
  | { kind: ""strlit""; value: string }
  | { kind: ""nonterminal""; value: string }
  | { kind: ""regex""; value: string }
  | { kind: ""eof"" };
  
  " ++ tx "export type Tokens = {" ++ concat l ++ tx "
}

").

(** parse_gen.rs:225-239: one production. *)
Definition token_index (g : grammar) (x : sym) : res nat :=
  match get_token_idx g x with Some i => Ok i | None => Panic PUnwrapNone end.
(** parse_gen.rs:225-239: its text. *)
Definition production_text (g : grammar) (x : nat * production) : res (list N) :=
  let* idxs := mapM (token_index g) (p_syms (snd x)) in
  Ok (decn (fst x) ++ tx ": { name: """ ++ p_name (snd x) ++ tx """, tokens: [" ++
      flat_map (fun i => decn i ++ tx ",") idxs ++ tx "] }
").
(** parse_gen.rs:213-243. *)
Definition productions_text (g : grammar) : res (list N) :=
  let* l := mapM (production_text g) (enum (g_prods g)) in
  Ok (tx "export type Production = {
                name: string;
                tokens: Array<keyof Tokens>;
              };
              
              " ++ tx "export type Productions = {" ++ concat l ++ tx "
}

").

(** parse_gen.rs:245-262. *)
Definition action_text (a : action) : list N :=
  match a with Shift j => tx "shift: " ++ decn j | Reduce r => tx "reduce: " ++ decn r | Accept => tx "accept: true" end.
(** parse_gen.rs:245-262 [generate_action_table]. *)
Definition action_table_text (t : action_table) : list N :=
  tx "export type Action = {" ++
  flat_map (fun row => decn (fst row) ++ tx ": {" ++
    flat_map (fun e => decn (fst e) ++ tx ": {" ++ action_text (snd e) ++ tx "
}
") (snd row) ++ tx "
}
") t ++ tx "
}
".

(** parse_gen.rs:264-275. *)
Definition goto_table_text (t : goto_table) : list N :=
  tx "export type Goto = {" ++
  flat_map (fun row => decn (fst row) ++ tx ": {" ++
    flat_map (fun e => tx "
" ++ fst e ++ tx ": " ++ decn (snd e) ++ tx "
") (snd row) ++ tx "
}
") t ++ tx "
}
".

(** parse_gen.rs:277-296; [is_terminal] only filters out what the match skips. *)
Definition kind_text (x : nat * sym) : list N :=
  let entry (name : list N) := tx "'" ++ name ++ tx "': " ++ decn (fst x) ++ tx "
" in
  match snd x with
  | SStr s => entry s
  | SReg r => entry r
  | SEof => entry (tx "EOF")
  | SNon _ | SEps => []
  end.
(** parse_gen.rs:277-296 [generate_tokenkind_to_idx]. *)
Definition tokenkind_text (g : grammar) : list N :=
  tx "export type TokenKindToIdx = {" ++ flat_map kind_text (enum (g_tokens g)) ++ tx "
}
".

(** parse_gen.rs:147-156. *)
Definition type_defs_text (ast : list aprod) (g : grammar) (t : tables) : res (list N) :=
  let* toks := tokens_text g in
  let* prods := productions_text g in
  Ok (tx "export declare module type_defs {
" ++ symbols_text ast ++ toks ++ prods ++ action_table_text (t_action t) ++ goto_table_text (t_goto t) ++
  tokenkind_text g ++ tx "
}
").

(** parse_gen.rs:158-164. *)
Definition imports_text : list N := tx "import * as U from ""./util""
import * as L from ""./lex""

".

(** ** The actions *)

(** parse_gen.rs:19-30 [write_condition]. *)
Definition condition (cond then_ otherwise : list N) : list N := cond ++ tx " ? " ++ then_ ++ tx " : " ++ otherwise.

(** parse_gen.rs:373-389 [call_impl].  The arguments of [call_impl_args] (349-371) are built and dropped;
    they can only panic on a name inside a name, as [validate_params] does. *)
Definition call_impl (a : gaction) : list N :=
  tx "[" ++ tx "{ kind: '" ++ ga_name a ++ tx "', value: " ++ ga_code a ++ tx " }," ++ tx "...newStack]".

(** parse_gen.rs:425-438: the pattern of the popped values. *)
Fixpoint popped_pattern (i : nat) (l : list aparam) : list N :=
  match l with
  | [] => []
  | PNamed n _ :: l => tx "infer __" ++ n ++ tx "," ++ popped_pattern i l
  | _ :: l => tx "infer var" ++ decn i ++ tx "," ++ popped_pattern (S i) l
  end.

(** parse_gen.rs:473-531: the conditions and the errors pushed for one input at position [i]. *)
Definition checks (idx i : nat) (p : aparam) : res (list (list N) * list (list N)) :=
  match p with
  | PNamed n (PNon nt) =>
      Ok ([tx "__" ++ n ++ tx " extends { kind : """ ++ nt ++ tx """, value: infer " ++ n ++ tx " extends " ++ nt ++ tx " }"],
          [tx """error: invalid symbol (pos `" ++ decn i ++ tx "`, Action" ++ decn idx ++ tx ")"""])
  | PNamed n (PStr s) =>
      Ok ([tx "__" ++ n ++ tx " extends { kind: ""token"", token: L.Token }";
           tx "__" ++ n ++ tx "['token']['value'] extends infer " ++ n ++ tx " extends '" ++ s ++ tx "'"],
          [tx "`error: not a token (pos \`" ++ decn i ++ tx "\`, Action" ++ decn idx ++ tx ")`";
           tx "`error: invalid symbol (pos \`" ++ decn i ++ tx "\`, Action" ++ decn idx ++ tx ")`"])
  | PNamed n (PReg _) =>
      Ok ([tx "__" ++ n ++ tx " extends { kind: ""token"", token: L.Token }";
           tx "__" ++ n ++ tx "['token']['value'] extends infer " ++ n ++ tx " extendsstring"],
          [tx "`error: not a token (pos \`" ++ decn i ++ tx "\`, Action" ++ decn idx ++ tx ")`";
           tx "`error: invalid symbol (pos \`" ++ decn i ++ tx "\`, Action" ++ decn idx ++ tx ")`"])
  | PNamed _ (PNamed _ _) => Panic PAssert
  | _ => Ok ([], [])
  end.
(** parse_gen.rs:465-545: those of all parameters. *)
Fixpoint all_checks (idx i : nat) (l : list aparam) : res (list (list N) * list (list N)) :=
  match l with
  | [] => Ok ([], [])
  | p :: l => let* (c, e) := checks idx i p in let* (cs, es) := all_checks idx (S i) l in Ok (c ++ cs, e ++ es)
  end.
(** parse_gen.rs:465-545 [validate_params]. *)
Definition validate_params (a : gaction) (call : list N) : res (list N) :=
  let* (cs, es) := all_checks (ga_idx a) 1 (ga_inputs a) in
  Ok (flat_map (fun c => c ++ tx " ? ") cs ++ call ++ flat_map (fun e => tx " : " ++ e) es).

(** parse_gen.rs:416-463 [popped_values]. *)
Definition popped_values (a : gaction) : res (list N) :=
  let* v := validate_params a (call_impl a) in
  Ok (condition (tx "poppedValues extends [" ++ popped_pattern 0 (ga_inputs a) ++ tx "]")
        (condition (tx "newStack extends type_defs.Symbol[]") v
           (tx "`unreachable: \`newStack\` should always be a type_defs.Symbol[] (Action" ++ decn (ga_idx a) ++ tx ")`"))
        (tx "`error: popping off symbol Stack Action" ++ decn (ga_idx a) ++ tx "`")).
(** parse_gen.rs:391-414 [write]. *)
Definition gaction_text (a : gaction) : res (list N) :=
  let* p := popped_values a in
  Ok (tx "type Action" ++ decn (ga_idx a) ++ tx "<symbolStack extends type_defs.Symbol[]> = " ++
      condition (tx "U.PopNStackWithValue<symbolStack, " ++ decn (pop_amount a) ++ tx "> extends [infer newStack, infer poppedValues]")
        p (tx "'unreachable: inferring popped values never fails'")).

(** parse_gen.rs:303-309: the types of the symbols. *)
Definition variants_text (ast : list aprod) : list N :=
  flat_map (fun v => tx "type " ++ fst v ++ tx " = " ++ snd v ++ tx "
") (variants ast).
(** parse_gen.rs:311-323 [EmitProduction]. *)
Definition emit_text (l : list gaction) : list N :=
  tx "
type EmitProduction<prodIdx extends number, symbolStack extends type_defs.Symbol[]> = " ++
  flat_map (fun a => tx "prodIdx extends " ++ decn (ga_idx a) ++ tx " ? actions.Action" ++ decn (ga_idx a) ++ tx "<symbolStack> :") l ++
  tx "`error: invalid production idx: ${prodIdx}`;
".
(** parse_gen.rs:298-345. *)
Definition actions_text (ast : list aprod) (l : list gaction) : res (list N) :=
  let* acts := mapM gaction_text l in
  Ok (tx "export declare module actions {
" ++ variants_text ast ++ emit_text l ++ tx "
" ++ flat_map (fun t => t ++ tx "
") acts ++ tx "
}
").

(** parse_gen.rs:74-145, 603-611: the second component of [generate]. *)
Definition parse_generate (ast : list aprod) (l : lalr) : res (list N) :=
  let* acts := gactions ast in
  let* defs := type_defs_text ast (l_grammar l) (l_tables l) in
  let* a := actions_text ast acts in
  Ok (defs ++ imports_text ++ a).
