(** Model of /repo/src/codegen/lex_gen.rs: the generated lexer tables, character tables and
    arithmetic tables, as text. *)
From Coq Require Import String.
From Verif Require Import Base Text Regex Nfa Dfa Lex.
Local Open Scope list_scope.

(** ** lex_gen.rs:323-336 [gen_arithmetic]; the [println!] of line 332 is not modelled. *)
Definition gen_arithmetic (max_nums : nat) : list N :=
  tx "export type SuccTable = {
" ++
  flat_map (fun i => tx "    " ++ decn i ++ tx ": " ++ decn (i + 1) ++ tx ";
") (seq 0 max_nums) ++
  tx "
}

" ++
  tx "export type PredTable = {
" ++
  flat_map (fun i => tx "    " ++ decn (i + 1) ++ tx ": " ++ decn i ++ tx ";
") (seq 0 max_nums) ++
  tx "
}
".

(** ** lex_gen.rs:36-80 [ts::Ctx] *)

(** lex_gen.rs:44-48 [State]. *)
Record ts_state := TsState { ts_labels : list (nat * rng); ts_accepting : bool }.
(** lex_gen.rs:37-42 [Ctx]; [chars] is never read and left out. *)
Record lex_ctx := LexCtx {
  lc_tokens : list (nat * (list N * bool));
  lc_states : list ts_state;
  lc_dfa_to_nfa : list (nat * list nat) }.

(** lex_gen.rs:179-196 [from_lex_state]. *)
Definition from_lex_state (d : dfa) (s : nat) : res ts_state :=
  let* oes := d_edge_iter d s in
  Ok (TsState (match oes with Some es => map (fun e => (de_to e, de_label e)) es | None => [] end)
              (dfa_state_is_accepting d s)).

(** lex_gen.rs:54-80 [new]: a token is kept when a state of the DFA accepts it. *)
Definition lex_ctx_new (L : lexer) : res lex_ctx :=
  let idxs := seq 0 (length (d_first (lx_dfa L))) in
  let tokens := fold_left (fun m e => map_insert (fst e) (snd e) m)
    (flat_map (fun kv =>
       flat_map (fun i => match map_get i (lx_accepting L) with
                          | Some set => if existsb (Nat.eqb (fst kv)) set then [(fst kv, (td_name (snd kv), td_with_val (snd kv)))] else []
                          | None => []
                          end) idxs) (lx_tokens L)) [] in
  let* states := mapM (from_lex_state (lx_dfa L)) idxs in
  Ok (LexCtx tokens states (dfa_to_nfa (lx_dfa L))).

(** [{}] of a [bool]. lex_gen.rs:104. *)
Definition dec_bool (b : bool) : list N := if b then tx "true" else tx "false".

(** lex_gen.rs:94-106: one [TokenDef] type. *)
Definition token_def_text (e : nat * (list N * bool)) : list N :=
  tx "type TokenDef" ++ decn (fst e) ++ tx " = {
                    kind: """ ++ fst (snd e) ++ tx """,
                    hasValue: " ++ dec_bool (snd (snd e)) ++ tx "
                }
                
                ".
(** lex_gen.rs:121-125: a label. *)
Definition label_text (m : rng) : list N := tx "{ from: " ++ dec (fst m) ++ tx ", to: " ++ dec (snd m) ++ tx " }".
(** lex_gen.rs:114-140: one [State] type. *)
Definition state_text (i : nat) (s : ts_state) : list N :=
  tx "type State" ++ decn i ++ tx " = {
                    to: [" ++ join (tx ",") (map (fun x => decn (fst x)) (ts_labels s)) ++ tx "],
                    labels: [" ++ join (tx ",") (map (fun x => label_text (snd x)) (ts_labels s)) ++ tx "],
                    accepting: " ++ dec_bool (ts_accepting s) ++ tx "
                }
                
                ".
(** lex_gen.rs:154-162 [nfa_set_to_string]. *)
Definition nfa_set_text (set : list nat) : list N := tx "[ " ++ join (tx ", ") (map decn set) ++ tx " ]".

(** [iter().enumerate()]. lex_gen.rs:114 and 142-147. *)
Definition enum {A} (l : list A) : list (nat * A) := combine (seq 0 (length l)) l.

(** lex_gen.rs:82-175 [to_string]. *)
Definition lex_ctx_text (c : lex_ctx) : list N :=
  tx "/**
            * These are generated DFA states for the lexer.
            * Don't edit this file.
            */
            
            " ++
  flat_map token_def_text (lc_tokens c) ++
  tx "export type Tokens = {
" ++
  flat_map (fun e => tx "  " ++ decn (fst e) ++ tx ": TokenDef" ++ decn (fst e) ++ tx ";") (lc_tokens c) ++
  tx "
}

" ++
  flat_map (fun x => state_text (fst x) (snd x)) (enum (lc_states c)) ++
  tx "export type States = [" ++ join (tx ", ") (map (fun x => tx "State" ++ decn (fst x)) (enum (lc_states c))) ++ tx "];

" ++
  tx "export type DFAtoNFA = {
  " ++ flat_map (fun x => decn (fst x) ++ tx ": " ++ nfa_set_text (snd x) ++ tx ",
") (lc_dfa_to_nfa c) ++ tx "}".

(** lex_gen.rs:200-205 [generate]. *)
Definition lex_generate (L : lexer) : res (list N) := let* c := lex_ctx_new L in Ok (lex_ctx_text c).

(** ** lex_gen.rs:207-289 [generate_chars] *)

Definition nrange (a b : N) : list N := map (fun i => (a + N.of_nat i)%N) (seq 0 (N.to_nat (b - a))).

(** lex_gen.rs:230-272; the two long runs at the end are written as ranges here. *)
Definition invisible_codepoints : list N := [
  9; 11; 12; 13; 127; 160; 173; 847; 1564; 4447; 4448; 6068; 6069; 6155; 6156; 6157; 6158; 7355; 
  7356; 8192; 8193; 8194; 8195; 8196; 8197; 8198; 8199; 8200; 8201; 8202; 8203; 8204; 8205; 
  8206; 8207; 8234; 8235; 8236; 8237; 8238; 8239; 8287; 8288; 8289; 8290; 8291; 8292; 8293; 
  8294; 8295; 8296; 8297; 8298; 8299; 8300; 8301; 8302; 8303; 10240; 12288; 12644; 65024; 65025; 
  65026; 65027; 65028; 65029; 65030; 65031; 65032; 65033; 65034; 65035; 65036; 65037; 65038; 
  65039; 65279; 65440; 65520; 65521; 65522; 65523; 65524; 65525; 65526; 65527; 65528; 65532; 
  78844; 119155; 119156; 119157; 119158; 119159; 119160; 119161; 119162]%N ++ nrange 917504 917632 ++ nrange 917760 918000.

(** lex_gen.rs:207-289.  [dot] stands for the ranges of the class the regex crate builds for a
    dot.  A character is the number [i as u8 as char]; its value is itself. *)
Definition generate_chars (dot : list (N * N)) : list (N * N) :=
  let range_chars := flat_map (fun r => map (fun i => (i mod 256)%N) (nrange (fst r) (snd r + 1))) dot ++ [32%N] in
  fold_left (fun m c =>
    if existsb (N.eqb c) invisible_codepoints then m
    else match map_get c m with Some _ => m | None => map_insert c (c mod 256)%N m end) range_chars [].

(** lex_gen.rs:294-301 [char_escape]. *)
Definition char_escape (c : N) : list N :=
  if (c =? 34)%N then [92; 34]%N else if (c =? 92)%N then [92; 92]%N else if (c =? 10)%N then [92; 110]%N else [c].

(** lex_gen.rs:291-321 [chars_to_string]. *)
Definition chars_to_string (m : list (N * N)) : list N :=
  tx "export type Characters = {" ++
  flat_map (fun x => tx "
    " ++ dec (snd x) ++ tx ": """ ++ char_escape (fst x) ++ tx """,
") m ++
  tx "}" ++
  tx "
 export type CharTable = {" ++
  flat_map (fun x => tx "
""" ++ char_escape (fst x) ++ tx """: " ++ dec (snd x) ++ tx ",") m ++
  tx "}".
