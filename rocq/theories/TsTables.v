(** What a file of generated lexer tables means to ts/lex.ts: specification, read off the text. *)
From Coq Require Import Ascii String.
From Verif Require Import Base Text TsText.
Local Open Scope list_scope.

(** One entry of [States], with the members ts/lex.ts:16-20 declares. *)
Record ts_lstate := TsLState { tl_to : list N; tl_labels : list (N * N); tl_accepting : bool }.
(** [States], [Tokens] (kind, hasValue) and [DFAtoNFA] of ts/lex.ts:3. *)
Record lex_tables := LexTables {
  lt_states : list ts_lstate;
  lt_tokens : list (N * (list N * bool));
  lt_d2n : list (N * list N) }.

Definition vbool (b : bool) : value := VWord (if b then tx "true" else tx "false").
Definition vlabel (m : N * N) : value := VObj [(KName (tx "from"), VNum (fst m)); (KName (tx "to"), VNum (snd m))].
Definition vstate (s : ts_lstate) : value :=
  VObj [(KName (tx "to"), VArr (map VNum (tl_to s))); (KName (tx "labels"), VArr (map vlabel (tl_labels s)));
        (KName (tx "accepting"), vbool (tl_accepting s))].
Definition vtoken (t : list N * bool) : value := VObj [(KName (tx "kind"), VStr (fst t)); (KName (tx "hasValue"), vbool (snd t))].

(** The type named by [v] in the declarations [ds]. *)
Definition names (ds : list (list N * value)) (v : value) (v' : value) : Prop := exists n, v = VWord n /\ In (n, v') ds.

(** The text declares the tables [T]: every name once, every member once. *)
Definition ReadLex (text : list N) (T : lex_tables) : Prop :=
  exists ts ds sts tks dn, toks text = Some ts /\ Decls ts ds /\ NoDup (map fst ds) /\
  In (tx "States", VArr sts) ds /\ Forall2 (fun v s => names ds v (vstate s)) sts (lt_states T) /\
  In (tx "Tokens", VObj tks) ds /\ NoDup (keys tks) /\
  Forall2 (fun kv e => fst kv = KNum (fst e) /\ names ds (snd kv) (vtoken (snd e))) tks (lt_tokens T) /\
  In (tx "DFAtoNFA", VObj dn) ds /\ NoDup (keys dn) /\ dn = map (fun e => (KNum (fst e), VArr (map VNum (snd e)))) (lt_d2n T).

(** Member access by number. *)
Definition geti {A} (k : N) (l : list (N * A)) : option A := option_map snd (find (fun e => (fst e =? k)%N) l).

(** ts/lex.ts:32-46 [GetTokenDef]: the first NFA state of the set that has a token. *)
Fixpoint first_def (tokens : list (N * (list N * bool))) (set : list N) : option (list N * bool) :=
  match set with
  | [] => None
  | x :: set => match geti x tokens with Some t => Some t | None => first_def tokens set end
  end.
Definition token_def_of (T : lex_tables) (dfa_state : N) : option (list N * bool) :=
  match geti dfa_state (lt_d2n T) with Some set => first_def (lt_tokens T) set | None => None end.
