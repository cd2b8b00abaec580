(** The generated parser tables, read back. *)
From Coq Require Import Ascii String.
From Verif Require Import Base Text Regex Nfa Dfa Lex Grammar First Item Table Lalr LexGen TsText TsTextFacts TsScan
  TsModule TsModuleFacts LexGenProofs ParseGen.
Local Open Scope list_scope.

Lemma in_enum {A} (l : list A) i x : In (i, x) (enum l) -> In x l.
Proof. intros H. apply (in_map snd) in H. rewrite enum_snd in H. exact H. Qed.

Lemma ok_inj {A} (a b : A) : Ok a = Ok b -> a = b.
Proof. intros E. injection E. auto. Qed.

Definition unq0 (q : N) (s : list N) : list N := match unq q s with Some y => y | None => [] end.
Lemma unq0_ok q s : unq q s <> None -> unq q s = Some (unq0 q s).
Proof. unfold unq0. destruct (unq q s); congruence. Qed.

Lemma ident_wordy n : ident n -> wordy n.
Proof.
  assert (L : forall c, ident_start c -> is_letter c = true).
  { intros c H. unfold ident_start in H. unfold is_letter. rewrite !orb_true_iff, !andb_true_iff, !N.leb_le, !N.eqb_eq. lia. }
  destruct n as [|c n]; [auto|]. cbn [ident wordy]. intros [H1 H2]. split; auto.
  eapply Forall_impl; [|exact H2]. intros d [H|H]; unfold word_char; apply orb_true_iff; [left; auto|right].
  unfold is_digit. rewrite andb_true_iff, !N.leb_le. lia.
Qed.
Lemma ident_quotable q n : (q = 34 \/ q = 39)%N -> ident n -> quotable q n.
Proof.
  intros Hq H. unfold quotable. assert (G : forall c, ident_rest c -> (c <> q /\ c <> 92 /\ c <> 10 /\ c <> 13)%N).
  { intros c Hc. unfold ident_rest, ident_start in Hc. lia. }
  destruct n as [|c n]; [destruct H|]. destruct H as [H1 H2]. constructor; [apply G; left; auto|]. eapply Forall_impl; [|exact H2]. auto.
Qed.
Lemma ident_unq q n : (q = 34 \/ q = 39)%N -> ident n -> unq q n = Some n.
Proof. intros Hq H. apply quotable_unq, ident_quotable; auto. Qed.

Lemma scan_mapM {A} (f : A -> res (list N)) (g : A -> list tok) l r : mapM f l = Ok r ->
  (forall x t, In x l -> f x = Ok t -> scan SNone t = (g x, SNone)) -> scan SNone (concat r) = (flat_map g l, SNone).
Proof.
  revert r. induction l as [|x l IH]; intros r E H; cbn [mapM] in E.
  - injection E as <-. reflexivity.
  - apply bind_ok in E as (t & Et & E). apply bind_ok in E as (r' & Er & E). injection E as <-. cbn [concat flat_map].
    apply scan_seq with SNone; [apply H; [left; auto|auto]|]. apply IH; auto. intros y u Hy. apply H. right. auto.
Qed.

(** Reading with words that are not literals. *)
Ltac sw name := repeat (first [sc1 name | apply scan_word_then; [name|] | apply scan_more_then; [name|] | eapply scan_quo_then; [vm_compute; reflexivity|]]).

(** ** Tokens of the type definitions *)

Definition exp_typ (n : string) (r : list tok) : list tok := TWord (tx "export") :: typ (tx n) r.

Definition sym_toks (p : aprod) : list tok :=
  [TPun 124] ++ TPun 123 :: [word "kind"; TPun 58; TStr 34 (ap_name p); TPun 44; word "value"; TPun 58; word "actions"; TPun 46; TWord (ap_name p)] ++ [TPun 125].
Definition symbol_decl (ast : list aprod) : list tok :=
  exp_typ "Symbol" ([TPun 61] ++ (TPun 123 :: [word "kind"; TPun 58; TStr 34 (tx "token"); TPun 44; word "token"; TPun 58; word "L"; TPun 46; word "Token"] ++ [TPun 125]) ++
    flat_map sym_toks ast ++ [TNl; TNl]).
Lemma scan_sym p : ident (ap_name p) ->
  scan SNone (tx "| { kind: """ ++ ap_name p ++ tx """, value: actions." ++ ap_name p ++ tx " }") = (sym_toks p, SNone).
Proof.
  intros H. pose proof (ident_unq 34 _ (or_introl eq_refl) H) as H1. pose proof (ident_wordy _ H) as H2.
  etransitivity; [sw ltac:(eassumption)|reflexivity].
Qed.
Lemma scan_symbols ast : (forall p, In p ast -> ident (ap_name p)) -> scan SNone (symbols_text ast) = (symbol_decl ast, SNone).
Proof.
  intros H. unfold symbols_text. etransitivity; [sc ltac:(intros p Hp; apply scan_sym; apply H; exact Hp)|].
  unfold symbol_decl, exp_typ, typ. rewrite <- ?app_assoc. cbn [app]. reflexivity.
Qed.

Definition token_entry (x : sym) : list N * option (list N) :=
  match x with
  | Grammar.SStr s => (tx "strlit", Some (unq0 34 s))
  | SNon n => (tx "nonterminal", Some n)
  | SReg r => (tx "regex", Some (unq0 34 r))
  | SEps => ([], None)
  | SEof => (tx "eof", None)
  end.
Definition token_toks (x : nat * sym) : list tok :=
  TNl :: TNum (N.of_nat (fst x)) :: TPun 58 :: TPun 123 ::
  (word "kind" :: TPun 58 :: TStr 34 (fst (token_entry (snd x))) ::
   match snd (token_entry (snd x)) with Some v => [TPun 44; word "value"; TPun 58; TStr 34 v] | None => [] end) ++ [TPun 125].
(** The texts of the symbols stay inside their quotes. *)
Definition sym_readable (x : sym) : Prop :=
  match x with Grammar.SStr s | SReg s => unq 34 s <> None /\ unq 39 s <> None | SNon n => ident n | _ => True end.
Lemma scan_token x t : sym_readable (snd x) -> token_text x = Ok t -> scan SNone t = (token_toks x, SNone).
Proof.
  destruct x as [i y]. cbn [snd]. intros Hr E. unfold token_text in E. cbn [fst snd] in E.
  destruct y as [s|s|s| |]; try discriminate E; apply ok_inj in E; subst t; unfold token_toks; cbn [fst snd token_entry].
  - destruct Hr as [H1 _]. apply unq0_ok in H1. etransitivity; [sw ltac:(exact H1)|reflexivity].
  - cbn [sym_readable] in Hr. pose proof (ident_unq 34 _ (or_introl eq_refl) Hr) as H1.
    etransitivity; [sw ltac:(exact H1)|reflexivity].
  - destruct Hr as [H1 _]. apply unq0_ok in H1. etransitivity; [sw ltac:(exact H1)|reflexivity].
  - etransitivity; [sc idtac|reflexivity].
Qed.
Definition token_decl : list tok :=
  exp_typ "Token" ([TPun 61; TNl; TPun 124] ++ (TPun 123 :: [word "kind"; TPun 58; TStr 34 (tx "strlit"); TPun 59; word "value"; TPun 58; word "string"] ++ [TPun 125]) ++
    [TNl; TPun 124] ++ (TPun 123 :: [word "kind"; TPun 58; TStr 34 (tx "nonterminal"); TPun 59; word "value"; TPun 58; word "string"] ++ [TPun 125]) ++
    [TNl; TPun 124] ++ (TPun 123 :: [word "kind"; TPun 58; TStr 34 (tx "regex"); TPun 59; word "value"; TPun 58; word "string"] ++ [TPun 125]) ++
    [TNl; TPun 124] ++ (TPun 123 :: [word "kind"; TPun 58; TStr 34 (tx "eof")] ++ [TPun 125]) ++ [TPun 59; TNl; TNl]).
Definition tokens_decl (g : grammar) : list tok :=
  exp_typ "Tokens" ([TPun 61] ++ (TPun 123 :: (flat_map token_toks (enum (g_tokens g)) ++ [TNl]) ++ [TPun 125]) ++ [TNl; TNl]).
Lemma scan_tokens g t : (forall x, In x (g_tokens g) -> sym_readable x) -> tokens_text g = Ok t ->
  scan SNone t = (TNl :: token_decl ++ tokens_decl g, SNone).
Proof.
  intros Hr E. unfold tokens_text in E. apply bind_ok in E as (l & El & E). apply ok_inj in E. subst t.
  assert (Hl : scan SNone (concat l) = (flat_map token_toks (enum (g_tokens g)), SNone)).
  { eapply scan_mapM; [exact El|]. intros x u Hx. apply scan_token. apply Hr. destruct x as [i x]. eapply in_enum. exact Hx. }
  etransitivity.
  - sc idtac. eapply scan_seq; [exact Hl|]. sc idtac.
  - unfold token_decl, tokens_decl, exp_typ, typ. rewrite <- ?app_assoc. cbn [app]. rewrite <- ?app_assoc. cbn [app]. reflexivity.
Qed.

Definition index0 (g : grammar) (x : sym) : nat := match get_token_idx g x with Some i => i | None => O end.
Definition prod_toks (g : grammar) (x : nat * production) : list tok :=
  TNum (N.of_nat (fst x)) :: TPun 58 :: TPun 123 :: ([word "name"; TPun 58; TStr 34 (p_name (snd x)); TPun 44; word "tokens"; TPun 58] ++
   TPun 91 :: flat_map (fun y => [TNum (N.of_nat (index0 g y)); TPun 44]) (p_syms (snd x)) ++ [TPun 93]) ++ [TPun 125; TNl].
Lemma scan_prod g x t : quotable 34 (p_name (snd x)) -> production_text g x = Ok t -> scan SNone t = (prod_toks g x, SNone).
Proof.
  intros Hn E. unfold production_text in E. apply bind_ok in E as (l & El & E). apply ok_inj in E. subst t.
  pose proof (quotable_unq 34 _ Hn) as H1.
  assert (Hl : l = map (index0 g) (p_syms (snd x))).
  { clear -El. revert l El. induction (p_syms (snd x)) as [|y ys IH]; intros l E; cbn [mapM] in E.
    - injection E as <-. reflexivity.
    - apply bind_ok in E as (i & Ei & E). apply bind_ok in E as (r & Er & E). injection E as <-. cbn [map]. rewrite (IH _ Er).
      f_equal. unfold token_index in Ei. unfold index0. destruct (get_token_idx g y); [|discriminate]. injection Ei as <-. reflexivity. }
  subst l. assert (Hl : scan SNone (flat_map (fun i => decn i ++ tx ",") (map (index0 g) (p_syms (snd x)))) =
    (flat_map (fun y => [TNum (N.of_nat (index0 g y)); TPun 44]) (p_syms (snd x)), SNone)).
  { rewrite flat_map_map. eapply scan_flat_map. intros y _. etransitivity; [sc idtac|reflexivity]. }
  etransitivity.
  - sc ltac:(first [exact H1|fail 1]).
    eapply scan_seq; [exact Hl|]. sc idtac.
  - unfold prod_toks. rewrite <- ?app_assoc. cbn [app]. rewrite <- ?app_assoc. cbn [app]. reflexivity.
Qed.
Definition production_decl : list tok :=
  exp_typ "Production" ([TPun 61] ++ (TPun 123 :: [TNl; word "name"; TPun 58; word "string"; TPun 59; TNl; word "tokens"; TPun 58; word "Array"; TPun 60; word "keyof";
    word "Tokens"; TPun 62; TPun 59; TNl] ++ [TPun 125]) ++ [TPun 59; TNl; TNl]).
Definition productions_decl (g : grammar) : list tok :=
  exp_typ "Productions" ([TPun 61] ++ (TPun 123 :: (flat_map (prod_toks g) (enum (g_prods g)) ++ [TNl]) ++ [TPun 125]) ++ [TNl; TNl]).
Lemma scan_productions g t : (forall p, In p (g_prods g) -> quotable 34 (p_name p)) -> productions_text g = Ok t ->
  scan SNone t = (production_decl ++ productions_decl g, SNone).
Proof.
  intros Hr E. unfold productions_text in E. apply bind_ok in E as (l & El & E). apply ok_inj in E. subst t.
  assert (Hl : scan SNone (concat l) = (flat_map (prod_toks g) (enum (g_prods g)), SNone)).
  { eapply scan_mapM; [exact El|]. intros x u Hx. apply scan_prod. apply Hr. destruct x as [i x]. eapply in_enum. exact Hx. }
  etransitivity.
  - sc idtac. eapply scan_seq; [exact Hl|]. sc idtac.
  - unfold production_decl, productions_decl, exp_typ, typ. rewrite <- ?app_assoc. cbn [app]. rewrite <- ?app_assoc. cbn [app]. reflexivity.
Qed.

Definition act_toks (a : action) : list tok :=
  match a with
  | Shift j => [word "shift"; TPun 58; TNum (N.of_nat j)]
  | Reduce r => [word "reduce"; TPun 58; TNum (N.of_nat r)]
  | Accept => [word "accept"; TPun 58; word "true"]
  end.
Definition aentry_toks (e : nat * action) : list tok :=
  TNum (N.of_nat (fst e)) :: TPun 58 :: (TPun 123 :: (act_toks (snd e) ++ [TNl]) ++ [TPun 125]) ++ [TNl].
Lemma scan_aentry e : scan SNone (decn (fst e) ++ tx ": {" ++ action_text (snd e) ++ tx "
}
") = (aentry_toks e, SNone).
Proof. destruct e as [k [j|r|]]; cbn [fst snd action_text]; (etransitivity; [sw idtac|reflexivity]). Qed.
Definition arow_toks (r : nat * list (nat * action)) : list tok :=
  TNum (N.of_nat (fst r)) :: TPun 58 :: (TPun 123 :: (flat_map aentry_toks (snd r) ++ [TNl]) ++ [TPun 125]) ++ [TNl].
Lemma scan_arow r : scan SNone (decn (fst r) ++ tx ": {" ++
    flat_map (fun e => decn (fst e) ++ tx ": {" ++ action_text (snd e) ++ tx "
}
") (snd r) ++ tx "
}
") = (arow_toks r, SNone).
Proof.
  etransitivity; [sc ltac:(intros i _; apply scan_aentry)|]. unfold arow_toks. rewrite <- ?app_assoc. cbn [app]. rewrite <- ?app_assoc. reflexivity.
Qed.
Definition action_decl (t : action_table) : list tok :=
  exp_typ "Action" ([TPun 61] ++ (TPun 123 :: (flat_map arow_toks t ++ [TNl]) ++ [TPun 125]) ++ [TNl]).
Lemma scan_action_table t : scan SNone (action_table_text t) = (action_decl t, SNone).
Proof.
  unfold action_table_text. etransitivity; [sc ltac:(intros i _; apply scan_arow)|].
  unfold action_decl, exp_typ, typ. rewrite <- ?app_assoc. cbn [app]. rewrite <- ?app_assoc. reflexivity.
Qed.

Definition gentry_toks (e : str * nat) : list tok := [TNl; TWord (fst e); TPun 58; TNum (N.of_nat (snd e)); TNl].
Lemma scan_gentry e : ident (fst e) -> scan SNone (tx "
" ++ fst e ++ tx ": " ++ decn (snd e) ++ tx "
") = (gentry_toks e, SNone).
Proof. intros H. apply ident_wordy in H. etransitivity; [sw ltac:(exact H)|reflexivity]. Qed.
Definition grow_toks (r : nat * list (str * nat)) : list tok :=
  TNum (N.of_nat (fst r)) :: TPun 58 :: (TPun 123 :: (flat_map gentry_toks (snd r) ++ [TNl]) ++ [TPun 125]) ++ [TNl].
Lemma scan_grow r : (forall e, In e (snd r) -> ident (fst e)) -> scan SNone (decn (fst r) ++ tx ": {" ++
    flat_map (fun e => tx "
" ++ fst e ++ tx ": " ++ decn (snd e) ++ tx "
") (snd r) ++ tx "
}
") = (grow_toks r, SNone).
Proof.
  intros H. etransitivity; [sc ltac:(intros i Hi; apply scan_gentry; apply H; exact Hi)|]. unfold grow_toks. rewrite <- ?app_assoc. cbn [app]. rewrite <- ?app_assoc. reflexivity.
Qed.
Definition goto_decl (t : goto_table) : list tok :=
  exp_typ "Goto" ([TPun 61] ++ (TPun 123 :: (flat_map grow_toks t ++ [TNl]) ++ [TPun 125]) ++ [TNl]).
Lemma scan_goto_table t : (forall r e, In r t -> In e (snd r) -> ident (fst e)) -> scan SNone (goto_table_text t) = (goto_decl t, SNone).
Proof.
  intros H. unfold goto_table_text. etransitivity; [sc ltac:(intros i Hi; apply scan_grow; intros e; apply H; exact Hi)|].
  unfold goto_decl, exp_typ, typ. rewrite <- ?app_assoc. cbn [app]. rewrite <- ?app_assoc. reflexivity.
Qed.

Definition kind_name (x : sym) : option (list N) :=
  match x with Grammar.SStr s | SReg s => Some (unq0 39 s) | SEof => Some (tx "EOF") | SNon _ | SEps => None end.
Definition kind_toks (x : nat * sym) : list tok :=
  match kind_name (snd x) with Some n => [TStr 39 n; TPun 58; TNum (N.of_nat (fst x)); TNl] | None => [] end.
Lemma scan_kind x : sym_readable (snd x) -> scan SNone (kind_text x) = (kind_toks x, SNone).
Proof.
  destruct x as [i y]. unfold kind_text, kind_toks. cbn [fst snd]. intros H. destruct y as [s|s|s| |]; cbn [kind_name]; try reflexivity.
  - destruct H as [_ H]. apply unq0_ok in H. etransitivity; [sw ltac:(exact H)|reflexivity].
  - destruct H as [_ H]. apply unq0_ok in H. etransitivity; [sw ltac:(exact H)|reflexivity].
  - etransitivity; [sw idtac|reflexivity].
Qed.
Definition kinds_decl (g : grammar) : list tok :=
  exp_typ "TokenKindToIdx" ([TPun 61] ++ (TPun 123 :: (flat_map kind_toks (enum (g_tokens g)) ++ [TNl]) ++ [TPun 125]) ++ [TNl]).
Lemma scan_kinds g : (forall x, In x (g_tokens g) -> sym_readable x) -> scan SNone (tokenkind_text g) = (kinds_decl g, SNone).
Proof.
  intros H. unfold tokenkind_text. etransitivity; [sc ltac:(intros [i x] Hi; apply scan_kind; apply H; eapply in_enum; exact Hi)|].
  unfold kinds_decl, exp_typ, typ. rewrite <- ?app_assoc. cbn [app]. rewrite <- ?app_assoc. reflexivity.
Qed.

Definition defs_body (ast : list aprod) (g : grammar) (t : tables) : list tok :=
  symbol_decl ast ++ [TNl] ++ token_decl ++ tokens_decl g ++ production_decl ++ productions_decl g ++ action_decl (t_action t) ++
  goto_decl (t_goto t) ++ kinds_decl g ++ [TNl].
Definition defs_toks (ast : list aprod) (g : grammar) (t : tables) : list tok :=
  [word "export"; word "declare"; word "module"; word "type_defs"; TPun 123; TNl] ++ defs_body ast g t ++ [TPun 125; TNl].

(** What the texts below need: names are identifiers, the literals stay inside quotes. *)
Record readable (ast : list aprod) (g : grammar) (t : tables) : Prop := Readable {
  rd_ast : forall p, In p ast -> ident (ap_name p);
  rd_tokens : forall x, In x (g_tokens g) -> sym_readable x;
  rd_prods : forall p, In p (g_prods g) -> quotable 34 (p_name p);
  rd_goto : forall r e, In r (t_goto t) -> In e (snd r) -> ident (fst e) }.
Lemma scan_type_defs ast g t x : readable ast g t -> type_defs_text ast g t = Ok x -> scan SNone x = (defs_toks ast g t, SNone).
Proof.
  intros [H1 H2 H3 H4] E. unfold type_defs_text in E. apply bind_ok in E as (a & Ea & E). apply bind_ok in E as (b & Eb & E).
  apply ok_inj in E. subst x.
  etransitivity.
  - sc idtac. eapply scan_seq; [apply scan_symbols; auto|]. eapply scan_seq; [eapply scan_tokens; eauto|].
    eapply scan_seq; [eapply scan_productions; eauto|]. eapply scan_seq; [apply scan_action_table|].
    eapply scan_seq; [apply scan_goto_table; auto|]. eapply scan_seq; [apply scan_kinds; auto|]. sc idtac.
  - unfold defs_toks, defs_body. rewrite <- ?app_assoc. cbn [app]. rewrite <- ?app_assoc. reflexivity.
Qed.

(** ** The declarations *)

Lemma inert_cons t ts : flat_tok t = true -> inert ts -> inert (t :: ts).
Proof. intros H1 H2. apply (inert_app [t]); auto. apply inert_tok; auto. Qed.
Lemma inert_obj ts : inert ts -> inert (TPun 123 :: ts ++ [TPun 125]).
Proof. apply inert_brackets; reflexivity. Qed.
Lemma inert_arr ts : inert ts -> inert (TPun 91 :: ts ++ [TPun 93]).
Proof. apply inert_brackets; reflexivity. Qed.
Lemma calm_cons t ts : quiet t = true -> calm ts -> calm (t :: ts).
Proof. intros H1 H2. apply (calm_app [t]); auto. apply calm_quiet. cbn [forallb]. rewrite H1. reflexivity. Qed.
Ltac inr := repeat lazymatch goal with
  | |- inert [] => exact inert_nil
  | |- inert (TPun 123 :: ?a ++ [TPun 125]) => apply (inert_obj a)
  | |- inert (TPun 91 :: ?a ++ [TPun 93]) => apply (inert_arr a)
  | |- inert (?t :: ?r) => apply (inert_cons t r); [reflexivity|]
  | |- inert (?a ++ ?b) => apply (inert_app a b)
  end.
Ltac clm := repeat lazymatch goal with
  | |- calm [] => exact calm_nil
  | |- calm (TPun 123 :: ?a ++ [TPun 125]) => apply (calm_obj a)
  | |- calm (TPun 91 :: ?a ++ [TPun 93]) => apply (calm_arr a)
  | |- calm (?t :: ?r) => apply (calm_cons t r); [reflexivity|]
  | |- calm (?a ++ ?b) => apply (calm_app a b)
  end.

Lemma inert_token x : inert (token_toks x).
Proof. unfold token_toks. inr. destruct (snd (token_entry (snd x))); inr. Qed.
Lemma inert_prod g x : inert (prod_toks g x).
Proof.
  unfold prod_toks. apply inert_cons; [reflexivity|]. apply inert_cons; [reflexivity|].
  match goal with |- inert (TPun 123 :: ?a ++ [TPun 125; TNl]) => change (inert (TPun 123 :: a ++ [TPun 125] ++ [TNl])) end.
  rewrite app_assoc, app_comm_cons. inr. apply inert_flat_map. intros y _. inr.
Qed.
Lemma inert_aentry e : inert (aentry_toks e).
Proof. unfold aentry_toks. inr. destruct (snd e); cbn [act_toks]; inr. Qed.
Lemma inert_arow e : inert (arow_toks e).
Proof. unfold arow_toks. inr. apply inert_flat_map. intros y _. apply inert_aentry. Qed.
Lemma inert_gentry e : inert (gentry_toks e).
Proof. unfold gentry_toks. inr. Qed.
Lemma inert_grow e : inert (grow_toks e).
Proof. unfold grow_toks. inr. apply inert_flat_map. intros y _. apply inert_gentry. Qed.
Lemma inert_kind e : inert (kind_toks e).
Proof. unfold kind_toks. destruct (kind_name (snd e)); inr. Qed.

Definition names_typ : list string := ["Symbol"; "Token"; "Tokens"; "Production"; "Productions"; "Action"; "Goto"; "TokenKindToIdx"]%string.
(** What comes after [type NAME] in each declaration. *)
Definition rest_of (d : list tok) : list tok := skipn 3 d.
Lemma calm_symbol ast : calm (rest_of (symbol_decl ast)).
Proof.
  unfold rest_of, symbol_decl, exp_typ, typ. cbn [skipn]. clm; try (inr; fail). apply calm_flat_map. intros p _. unfold sym_toks. apply calm_app; [clm|]. apply calm_obj. inr.
Qed.
Lemma calm_token : calm (rest_of token_decl).
Proof. unfold rest_of, token_decl, exp_typ, typ. cbn [skipn]. clm; inr. Qed.
Lemma calm_tokens g : calm (rest_of (tokens_decl g)).
Proof. unfold rest_of, tokens_decl, exp_typ, typ. cbn [skipn]. clm; inr. apply inert_flat_map. intros y _. apply inert_token. Qed.
Lemma calm_production : calm (rest_of production_decl).
Proof. unfold rest_of, production_decl, exp_typ, typ. cbn [skipn]. clm; inr. Qed.
Lemma calm_productions g : calm (rest_of (productions_decl g)).
Proof. unfold rest_of, productions_decl, exp_typ, typ. cbn [skipn]. clm; inr. apply inert_flat_map. intros y _. apply inert_prod. Qed.
Lemma calm_action t : calm (rest_of (action_decl t)).
Proof. unfold rest_of, action_decl, exp_typ, typ. cbn [skipn]. clm; inr. apply inert_flat_map. intros y _. apply inert_arow. Qed.
Lemma calm_goto t : calm (rest_of (goto_decl t)).
Proof. unfold rest_of, goto_decl, exp_typ, typ. cbn [skipn]. clm; inr. apply inert_flat_map. intros y _. apply inert_grow. Qed.
Lemma calm_kinds g : calm (rest_of (kinds_decl g)).
Proof. unfold rest_of, kinds_decl, exp_typ, typ. cbn [skipn]. clm; inr. apply inert_flat_map. intros y _. apply inert_kind. Qed.
