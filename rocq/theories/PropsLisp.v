(** Property C77: what the parser of the committed grammar file accepts, and the type it gives. *)
From Coq Require Import Ascii String.
From Verif Require Import Base Text Regex Nfa Dfa Lex LexSpec LexLoop LexProofs Utf8Spec Utf8Proofs Grammar GrammarSpec GrammarProofs First Item Table TableProofs TableFacts LexGrammar LexGrammarProofs
  Parse ParseSpec Auto ParseProofs ParseTerm TreeFacts PropsParse Lalr EndSpec EndProofs NfaLive PropsGrammar PropsEnd Witness PrintSpec
  LexGen LexGenProofs LexGenLexer TsText TsTextFacts TsScan TsTables TsModule TsModuleFacts ParseGenSpec ParseGen ParseGenProofs ParseGenFile ParseGenEmit ParseGenCheck PropsLexGen PropsParseGen Lisp
  TsUtil TsLex TsLexProofs PropsTsLex TsParse TsParseSpec TsParseProofs PropsTsParse
  GrammarFile GrammarFileSpec GrammarFileProofs PropsGrammarFile PropsWhole LispSpec LispProofs.
Local Open Scope list_scope.

Local Ltac compute_ok := vm_compute; reflexivity.
Local Notation K g := (fun (x : nat * nat * list N) s => nth_error (lex_syms g) (snd (fst x)) = Some s).

Section Reading.
  Variable g : grammar.
  Hypothesis Hsyms : lex_syms g = [Grammar.SStr (tx "("); Grammar.SStr (tx ")"); Grammar.SStr (tx "add"); rint].
  Hypothesis Hprods : map (fun pr => (p_name pr, p_syms pr)) (g_prods g) =
    [(tx "SExpr'", [SNon (tx "SExpr")]); (tx "SExpr", [Grammar.SStr (tx "("); SNon (tx "Exprs"); Grammar.SStr (tx ")")]);
     (tx "Exprs", [SNon (tx "Expr"); SNon (tx "Exprs")]); (tx "Exprs", [SNon (tx "Expr")]);
     (tx "Expr", [SNon (tx "SExpr")]); (tx "Expr", [Grammar.SStr (tx "add")]); (tx "Expr", [rint])].
  Local Notation Tk := (Tokenize (begins lisp_regex g) (is_sym lisp_regex g)).

  Lemma lisp_reading input ts r tr : Tk 0 input ts r -> Forall2 (K g) ts (yield tr) -> tree_ok g tr -> root g tr = Some (SNon (tx "SExpr")) ->
    exists a es w b, input = a ++ w ++ b ++ r /\ Forall white a /\ Writes (XList es) w /\ Forall white b /\ unreadable r /\
      tr = sexpr_of (map tree_of es) /\ map snd ts = texts (XList es).
  Proof using Hsyms Hprods.
    intros HT HF Hok Hr. destruct (read_tree g Hsyms Hprods tr Hok) as (_ & _ & H). specialize (H Hr).
    destruct (H 0 input ts r [] HT) as (a & w & s' & ts1 & ts2 & -> & Ha & -> & HF2 & HT2 & es & -> & Hus & Hw); [rewrite app_nil_r; exact HF|].
    inversion HF2; subst. apply (no_token g Hsyms) in HT2 as (b & -> & Hb & Hu). exists a, es, w, b. rewrite app_nil_r. auto 10.
  Qed.

  Lemma lisp_writing a es w b r : Forall white a -> Writes (XList es) w -> Forall white b -> unreadable r ->
    exists ts, Tk 0 (a ++ w ++ b ++ r) ts r /\ Forall2 (K g) ts (yield (sexpr_of (map tree_of es))) /\ map snd ts = texts (XList es).
  Proof using Hsyms.
    intros Ha Hw Hb Hr.
    assert (HT : Tk (0 + length a + length w) (b ++ r) [] r) by (apply (no_token g Hsyms); eauto).
    destruct (proj1 (write_read g Hsyms) _ _ Hw (b ++ r) ltac:(discriminate) _ _ _ HT) as (ts & HT1 & E & HF).
    rewrite app_nil_r in HT1. exists ts. split; [apply (read_white g Hsyms); auto|]. split; auto.
    replace (yield (tree_of (XList es))) with (yield (sexpr_of (map tree_of es)) ++ []) in HF by reflexivity. rewrite app_nil_r in HF. exact HF.
  Qed.

  Lemma forall2_det ts l l' : Forall2 (K g) ts l -> Forall2 (K g) ts l' -> l = l'.
  Proof.
    intros H. revert l'. induction H as [|x s ts l H _ IH]; intros l' H'; inversion H' as [|? s' ? l'' Hs Hl]; subst; auto. f_equal; [congruence|auto].
  Qed.
End Reading.

(** What is needed of the grammar. *)
Lemma lisp_grammar g : grammar_from_ast lisp_ast = Ok g ->
  lex_syms g = [Grammar.SStr (tx "("); Grammar.SStr (tx ")"); Grammar.SStr (tx "add"); rint] /\
  map (fun pr => (p_name pr, p_syms pr)) (g_prods g) =
    [(tx "SExpr'", [SNon (tx "SExpr")]); (tx "SExpr", [Grammar.SStr (tx "("); SNon (tx "Exprs"); Grammar.SStr (tx ")")]);
     (tx "Exprs", [SNon (tx "Expr"); SNon (tx "Exprs")]); (tx "Exprs", [SNon (tx "Expr")]);
     (tx "Expr", [SNon (tx "SExpr")]); (tx "Expr", [Grammar.SStr (tx "add")]); (tx "Expr", [rint])].
Proof. intros E. vm_compute in E. injection E as <-. split; reflexivity. Qed.

Lemma lisp_facts hash g l : grammar_from_ast lisp_ast = Ok g -> lalr_new lisp_regex hash g = Ok l ->
  lalr_new lisp_regex ehash g = Ok l /\
  exists st hs, file_says lisp_text lisp_ast /\ file_ast lisp_ast /\ find ap_start lisp_ast = Some st /\ ap_name st = tx "SExpr" /\
  quotes_ok g /\ codes_ok lisp_ast /\ kinds_distinct g /\ (forall s, named lisp_ast (IStr s) -> unq 39 s = Some s) /\ no_clash g /\
  Forall2 (fun x h => sym_hir lisp_regex x = Some h) (lex_syms g) hs /\ split_refines hs /\ Forall productive hs /\ closed g (l_tables l).
Proof.
  intros Eg El. assert (El' : lalr_new lisp_regex ehash g = Ok l).
  { unfold lalr_new in *. destruct (from_grammar lisp_regex g) as [L| |]; [|discriminate..]. cbn [bind] in *.
    destruct (make_tables hash g) as [t| |] eqn:Et; [|discriminate..]. destruct (grammar_from_ast_ok _ _ Eg) as (s & _ & W & _).
    rewrite (make_tables_any _ ehash _ _ _ W ehash_free Et). exact El. }
  split; auto.
  destruct C57_nonvacuous as (g' & l' & c & st & hs & H1 & H2 & H3 & H4 & H5 & H6 & H7 & H8 & H9 & H10 & H11 & H12 & H13 & H14 & _).
  rewrite Eg in H2. injection H2 as <-. rewrite El' in H4. injection H4 as <-.
  exists st, hs. split; auto. split; [apply (C52_file_ast lisp_text), C51_reading, H1|]. split; auto. split; [vm_compute in H3; injection H3 as <-; reflexivity|].
  do 4 (split; auto). split; [apply kinds_no_clash; auto|]. auto.
Qed.

(** [Lalr::parse] accepts a text exactly if it is a list, with white space before it, and after it
    nothing but what is not looked at; its reductions are those of the list.  Every other text is
    rejected: the parser does not run for ever, and has no other way to fail. *)
Theorem C77_accepts :
  forall hash g l, grammar_from_ast lisp_ast = Ok g -> lalr_new lisp_regex hash g = Ok l ->
  (forall input ps, lalr_parse l input = Ok ps <->
     exists a es w r, input = a ++ w ++ r /\ Forall white a /\ Writes (XList es) w /\ ignored r /\ ps = list_steps es) /\
  (forall input, (exists ps, lalr_parse l input = Ok ps) \/ lalr_parse l input = Panic PInvalidToken).
Proof.
  intros hash g l Eg El. destruct (lisp_grammar g Eg) as [Hsyms Hprods].
  destruct (lisp_facts hash g l Eg El) as (_ & st & hs & Hs & Hf & Hst & Hn & _ & _ & _ & _ & Hno & Hhs & Hsd & Hpr & Hcl). split.
  - intros input ps. destruct (C36_accepts_iff_partial lisp_regex hash lisp_ast g st l hs Hf Eg Hst El Hno Hhs Hsd Hpr input) as (ts & r & syms & HT & HF & _ & Hacc & Hall).
    rewrite Hn in *. split.
    + intros E. apply Hacc in E as (_ & tr & j & H1 & H2 & <- & _ & ->).
      destruct (lisp_reading g Hsyms Hprods input ts r tr HT HF H1 H2) as (a & es & w & b & -> & Ha & Hw & Hb & Hr & -> & _).
      exists a, es, w, (b ++ r). split; auto. split; auto. split; auto. split; [exists b, r; auto|]. eapply list_post; eauto.
    + intros (a & es & w & r' & -> & Ha & Hw & (b & r'' & -> & Hb & Hr) & ->).
      destruct (lisp_writing g Hsyms a es w b r'' Ha Hw Hb Hr) as (ts' & HT' & HF' & _).
      destruct (tokenize_det _ _ (acc_det g) _ _ _ _ _ _ HT HT') as [<- <-]. pose proof (forall2_det _ _ _ _ HF HF') as ->.
      destruct (list_tree_ok g Hprods es w Hw) as [H1 H2]. rewrite <- (list_post es w Hw). apply Hall; auto.
      intros p u Hx. destruct (layout_ascii _ _ _ _ (tokenize_layout _ _ _ _ _ _ HT)) with (p := p) (u := u) as (x & y & E & -> & Hxy); auto.
      { intros p' u' Hx'. apply in_map_iff in Hx' as ([[q i] v] & E & Hx'). injection E as <- <-.
        destruct (tokenize_longest _ _ _ _ _ _ HT q i v Hx') as (_ & _ & _ & _ & (_ & ((z & Hz & Hl) & _) & _)). eapply (lisp_ascii g Hsyms); eauto using nth_error_In. }
      cbn [plus]. rewrite E. destruct (cut_ascii x u y Hxy) as (B1 & B2 & _). auto.
  - intros input. destruct (C36_decides_partial lisp_regex hash lisp_ast g st l Hf Eg Hst El Hno input) as (toks & rest & (Hlay & Hin) & _ & _ & _ & H).
    destruct H as [H1 H2]; auto.
    + intros p u Hx. destruct (layout_ascii _ _ _ _ Hlay) with (p := p) (u := u) as (x & y & E & -> & Hxy); auto.
      { intros p' u' Hx'. unfold toks_texts in Hx'. apply in_map_iff in Hx' as ([[q z] v] & E & Hx'). injection E as <- <-. destruct (Hin _ _ _ Hx') as [Hz Hl]. eapply (lisp_ascii g Hsyms); eauto. }
      cbn [plus]. rewrite E. destruct (cut_ascii x u y Hxy) as (B1 & B2 & _). auto.
    + destruct (lalr_parse l input) as [ps|p|] eqn:E; [left; eauto|..]; right; apply H2; intros Hd; apply H1 in Hd as [ps Hd]; discriminate.
Qed.
Print Assumptions C77_accepts.

(** A text is read in one way only. *)
Theorem C77_unambiguous :
  forall a es w r a' es' w' r', Forall white a -> Writes (XList es) w -> ignored r -> Forall white a' -> Writes (XList es') w' -> ignored r' ->
  a ++ w ++ r = a' ++ w' ++ r' -> a = a' /\ es = es' /\ w = w' /\ r = r'.
Proof.
  intros a es w r a' es' w' r' Ha Hw (b & u & -> & Hb & Hu) Ha' Hw' (b' & u' & -> & Hb' & Hu') E.
  destruct (grammar_from_ast lisp_ast) as [g| |] eqn:Eg; [|vm_compute in Eg; discriminate Eg..].
  destruct (lisp_grammar g Eg) as [Hsyms Hprods].
  destruct (lisp_writing g Hsyms a es w b u Ha Hw Hb Hu) as (ts & HT & _ & Hx). destruct (lisp_writing g Hsyms a' es' w' b' u' Ha' Hw' Hb' Hu') as (ts' & HT' & _ & Hx').
  rewrite E in HT. destruct (tokenize_det _ _ (acc_det g) _ _ _ _ _ _ HT HT') as [<- <-].
  assert (Ees : XList es = XList es').
  { refine (proj1 (texts_inj (XList es) (proj1 writes_proper _ _ Hw) (XList es') [] [] (proj1 writes_proper _ _ Hw') _)). rewrite !app_nil_r. congruence. }
  injection Ees as <-.
  assert (Hcut : forall (x y : list N) (c d : N) v v', Forall white x -> Forall white y -> ~ white c -> ~ white d -> x ++ c :: v = y ++ d :: v' -> x = y /\ c :: v = d :: v').
  { induction x as [|p x IH]; intros [|q y] c d v v' H1 H2 H3 H4 E'; [auto| | |].
    - injection E' as -> _. inversion H2; contradiction.
    - injection E' as <- _. inversion H1; contradiction.
    - injection E' as <- E'. inversion H1; inversion H2; subst. destruct (IH _ _ _ _ _ ltac:(eassumption) ltac:(eassumption) H3 H4 E') as [-> ->]. auto. }
  assert (Hpar : forall e v, Writes (XList e) v -> exists m, v = 40%N :: m /\ exists m', v = m' ++ [41%N]).
  { intros e v Hv. inversion Hv as [| |? p q s _ _ _]; subst. exists (p ++ q ++ s ++ tx ")"). split; auto. exists (tx "(" ++ p ++ q ++ s). rewrite <- !app_assoc. reflexivity. }
  destruct (Hpar _ _ Hw) as (m & Em & n & En). destruct (Hpar _ _ Hw') as (m' & Em' & n' & En').
  rewrite Em, Em' in E. destruct (Hcut a a' 40%N 40%N (m ++ b ++ u) (m' ++ b' ++ u)) as [-> E2]; auto; try (unfold white; lia).
  change (40%N :: m ++ b ++ u) with ((40%N :: m) ++ b ++ u) in E2. change (40%N :: m' ++ b' ++ u) with ((40%N :: m') ++ b' ++ u) in E2. rewrite <- Em, <- Em' in E2.
  rewrite !app_assoc in E2. apply app_inv_tail in E2. rewrite En, En' in E2. apply (f_equal (@rev N)) in E2. rewrite !rev_app_distr in E2. cbn [rev app] in E2.
  destruct (Hcut (rev b) (rev b') 41%N 41%N (rev n) (rev n')) as [E3 E4]; auto using Forall_rev; try (unfold white; lia).
  apply (f_equal (@rev N)) in E3. rewrite !rev_involutive in E3. subst b'.
  apply (f_equal (@rev N)) in E4. cbn [rev] in E4. rewrite !rev_involutive in E4. rewrite <- En, <- En' in E4. auto.
Qed.
Print Assumptions C77_unambiguous.

(** What the actions of the file (basic_lisp.tlalr:2, 6, 7, 11-13) compute from the symbols of their
    bodies: the values of non-terminals and the texts of tokens. *)
Definition lisp_code (p : N) (ss : list (symbol js)) : js :=
  match N.to_nat p, ss with
  | 1, [_; SymNon _ v; _] => JObj [(tx "kind", JStr (tx "SExpr")); (tx "exprs", v)]
  | 2, [SymNon _ v; SymNon _ (JArr l)] => JArr (v :: l)
  | 3, [SymNon _ v] => JArr [v]
  | 4, [SymNon _ v] => JObj [(tx "kind", JStr (tx "sexpr")); (tx "sexpr", v)]
  | 5, [SymTok (TTok _ (Some (TLit s))) _] => JObj [(tx "kind", JStr (tx "symbol")); (tx "value", JStr s)]
  | 6, [SymTok (TTok _ (Some (TLit s))) _] => JObj [(tx "kind", JStr (tx "int")); (tx "value", JStr s)]
  | _, _ => JStr []
  end.

Section Values.
  Variable g : grammar.
  Hypothesis Hprods : map (fun pr => (p_name pr, p_syms pr)) (g_prods g) =
    [(tx "SExpr'", [SNon (tx "SExpr")]); (tx "SExpr", [Grammar.SStr (tx "("); SNon (tx "Exprs"); Grammar.SStr (tx ")")]);
     (tx "Exprs", [SNon (tx "Expr"); SNon (tx "Exprs")]); (tx "Exprs", [SNon (tx "Expr")]);
     (tx "Expr", [SNon (tx "SExpr")]); (tx "Expr", [Grammar.SStr (tx "add")]); (tx "Expr", [rint])].
  Local Notation Dn := (Denotes js g lisp_code).
  Local Notation U := (Forall2 (fun (y : ts_tok) (u : list N) => exists n, y = TTok n (Some (TLit u)))).

  Lemma split2 (y1 y2 : list ts_tok) (u1 u2 : list (list N)) : U (y1 ++ y2) (u1 ++ u2) -> length y1 = length u1 -> U y1 u1 /\ U y2 u2.
  Proof.
    revert u1. induction y1 as [|y y1 IH]; intros [|u u1] H E; try discriminate E; [auto|]. inversion H as [|? ? ? ? H1 H2]; subst.
    destruct (IH u1 H2) as [H3 H4]; [injection E as ->; auto|]. auto.
  Qed.
  Lemma yield_texts : (forall e w, Writes e w -> length (yield (tree_of e)) = length (texts e)) /\
    (forall es w, WritesAll es w -> length (yield (exprs_of (map tree_of es))) = length (flat_map texts es)).
  Proof.
    apply writes_both; auto.
    - intros es a w b _ _ H _. cbn [tree_of texts yield flat_map sexpr_of app length]. rewrite !app_length, H. cbn [length]. lia.
    - intros e w _ H. cbn [map exprs_of yield flat_map]. rewrite !app_nil_r. exact H.
    - intros e u a e' es w _ H1 _ _ H2 _. cbn [map exprs_of yield flat_map] in *. rewrite app_nil_r, !app_length, H1, H2, app_length. reflexivity.
  Qed.
  Lemma denotes_len tr us s : Dn tr us s -> length us = length (yield tr).
  Proof. intros H. apply denotes_leaves in H. induction H; cbn [length]; congruence. Qed.
  Lemma denotes_node p n b ts us s : nth_error (map (fun pr => (p_name pr, p_syms pr)) (g_prods g)) p = Some (n, b) -> Dn (Node p ts) us s ->
    exists ss, DenotesAll js g lisp_code ts us ss /\ s = SymNon n (lisp_code (N.of_nat p) ss).
  Proof. intros Hp H. destruct (prod_of _ _ _ _ Hp) as (pr & Hpr & <- & _). inversion H as [|? pr' ? ? ss Hpr' Hss]; subst. rewrite Hpr in Hpr'. injection Hpr' as <-. eauto. Qed.
  Lemma denotes_list1 t us ss : DenotesAll js g lisp_code [t] us ss -> exists s, ss = [s] /\ Dn t us s.
  Proof. intros H. inversion H as [|? ? s ? ? ? Hs H']; subst. inversion H'; subst. rewrite app_nil_r. eauto. Qed.

  Lemma denotes_value : (forall e w, Writes e w -> forall us s, Dn (tree_of e) us s -> U us (texts e) -> s = SymNon (tx "Expr") (value e)) /\
    (forall es w, WritesAll es w -> forall us s, Dn (exprs_of (map tree_of es)) us s -> U us (flat_map texts es) -> s = SymNon (tx "Exprs") (JArr (map value es))).
  Proof using Hprods.
    apply writes_both.
    - intros us s H HU. apply (denotes_node 5 (tx "Expr") [Grammar.SStr (tx "add")]) in H as (ss & H & ->); [|rewrite Hprods; reflexivity].
      apply denotes_list1 in H as (s & -> & H). inversion H; subst. inversion HU as [|? ? ? ? (m & E) _]; subst. injection E as -> ->. reflexivity.
    - intros c ds _ _ us s H HU. apply (denotes_node 6 (tx "Expr") [rint]) in H as (ss & H & ->); [|rewrite Hprods; reflexivity].
      apply denotes_list1 in H as (s & -> & H). inversion H; subst. inversion HU as [|? ? ? ? (m & E) _]; subst. injection E as -> ->. reflexivity.
    - intros es a w b _ Hes IH _ us s H HU. apply (denotes_node 4 (tx "Expr") [SNon (tx "SExpr")]) in H as (ss & H & ->); [|rewrite Hprods; reflexivity].
      apply denotes_list1 in H as (s & -> & H).
      apply (denotes_node 1 (tx "SExpr") [Grammar.SStr (tx "("); SNon (tx "Exprs"); Grammar.SStr (tx ")")]) in H as (ss & H & ->); [|rewrite Hprods; reflexivity].
      inversion H as [|t1 u1 s1 ts1 us1 ss1 D1 H1]; subst. inversion H1 as [|t2 u2 s2 ts2 us2 ss2 D2 H2]; subst. apply denotes_list1 in H2 as (s3 & -> & D3).
      cbn [texts] in HU. change (tx "(" :: flat_map texts es ++ [tx ")"]) with ([tx "("] ++ flat_map texts es ++ [tx ")"]) in HU.
      apply split2 in HU as [_ HU]; [|rewrite (denotes_len _ _ _ D1); reflexivity]. apply split2 in HU as [HU _]; [|rewrite (denotes_len _ _ _ D2); apply (proj2 yield_texts) with (1 := Hes)].
      rewrite (IH _ _ D2 HU). reflexivity.
    - intros e w He IH us s H HU. apply (denotes_node 3 (tx "Exprs") [SNon (tx "Expr")]) in H as (ss & H & ->); [|rewrite Hprods; reflexivity].
      apply denotes_list1 in H as (s & -> & H). cbn [flat_map] in HU. rewrite app_nil_r in HU. rewrite (IH _ _ H HU). reflexivity.
    - intros e u a e' es w He IH1 _ Hes IH2 _ us s H HU. change (exprs_of (map tree_of (e :: e' :: es))) with (Node 2 [tree_of e; exprs_of (map tree_of (e' :: es))]) in H.
      apply (denotes_node 2 (tx "Exprs") [SNon (tx "Expr"); SNon (tx "Exprs")]) in H as (ss & H & ->); [|rewrite Hprods; reflexivity].
      inversion H as [|t1 u1 s1 ts1 us1 ss1 D1 H1]; subst. apply denotes_list1 in H1 as (s2 & -> & D2).
      change (flat_map texts (e :: e' :: es)) with (texts e ++ flat_map texts (e' :: es)) in HU.
      apply split2 in HU as [HU1 HU2]; [|rewrite (denotes_len _ _ _ D1); apply (proj1 yield_texts) with (1 := He)].
      rewrite (IH1 _ _ D1 HU1), (IH2 _ _ D2 HU2). reflexivity.
  Qed.

  Lemma denotes_list es w us v : Writes (XList es) w -> Dn (sexpr_of (map tree_of es)) us (SymNon (tx "SExpr") v) -> U us (texts (XList es)) -> v = list_value es.
  Proof using Hprods.
    intros Hw H HU. assert (H4 : exists s, Dn (tree_of (XList es)) us s /\ s = SymNon (tx "Expr") (lisp_code 4 [SymNon (tx "SExpr") v])).
    { destruct (prod_of g 4 (tx "Expr") [SNon (tx "SExpr")]) as (pr & Hpr & <- & _); [rewrite Hprods; reflexivity|].
      exists (SymNon (p_name pr) (lisp_code 4 [SymNon (tx "SExpr") v])). split; [|reflexivity]. apply (den_node _ _ _ 4 pr); auto.
      rewrite <- (app_nil_r us). constructor; [exact H|constructor]. }
    destruct H4 as (s & H4 & Es). rewrite (proj1 denotes_value _ _ Hw _ _ H4 HU) in Es. injection Es as Es. exact (eq_sym Es).
  Qed.
End Values.

(** [Parse<Lex<input>>], for the two files generated from the grammar file: it has a value exactly
    if the text is a list, with white space around it and perhaps the beginning of the word add
    after it, that needs less than 50 steps; the value is the one the actions describe for the
    list. *)
Theorem C77_type_partial :
  forall hash g l, grammar_from_ast lisp_ast = Ok g -> lalr_new lisp_regex hash g = Ok l ->
  exists ltext T ptext P, lex_generate (l_lexer l) = Ok ltext /\ ReadLex ltext T /\ parse_generate lisp_ast l = Ok ptext /\ ReadParse ptext P /\
  forall size has_type regex_holds chars input, fits size (l_lexer l) -> own_codes chars ->
  (forall c, In c input -> map_get c chars <> None /\ (c <= N.of_nat size)%N) -> length input <= size ->
  well_typed lisp_code has_type regex_holds lisp_ast -> (forall r v, named lisp_ast (IReg r) -> regex_holds (Some (TLit v)) = true) ->
  forall s, ts_pipeline size chars T P (EmitProduction js size lisp_ast lisp_code has_type regex_holds) input = Some (PStack s) <->
    exists a es w r, input = a ++ w ++ r /\ Forall white a /\ Writes (XList es) w /\ ignored_ts r /\
      length (texts (XList es)) + length (list_steps es) < 50 /\ s = [SymNon (tx "SExpr") (list_value es)].
Proof.
  intros hash g l Eg El. destruct (lisp_grammar g Eg) as [Hsyms Hprods].
  destruct (lisp_facts hash g l Eg El) as (_ & st & hs & Hs & Hf & Hst & Hn & Hq & Hc & Hk & Hlit & Hno & Hhs & Hsd & Hpr & Hcl).
  destruct (C57_accepts_iff_partial lisp_regex hash lisp_text lisp_ast g l st hs Hs Eg Hst El Hq Hc Hk Hlit Hhs Hsd Hpr) as (ltext & T & ptext & P & E1 & E2 & E3 & E4 & H).
  exists ltext, T, ptext, P. do 4 (split; auto). intros size has_type regex_holds chars input Hfit Hown Hin Hlen Hwt Hreg.
  destruct (H js size lisp_code has_type regex_holds chars input Hfit Hown Hin Hlen Hwt Hreg) as (ts & r & syms & HT & HF & _ & Hacc & Hval). clear H.
  rewrite Hn in *. specialize (Hacc Hcl).
  assert (Hval' : forall es w, unfinished (begins lisp_regex g) input ts r -> Writes (XList es) w -> yield (sexpr_of (map tree_of es)) = syms -> map snd ts = texts (XList es) ->
    length (texts (XList es)) + length (list_steps es) < 50 ->
    ts_pipeline size chars T P (EmitProduction js size lisp_ast lisp_code has_type regex_holds) input = Some (PStack [SymNon (tx "SExpr") (list_value es)])).
  { intros es w Hu Hw Hy Hx Hlt. destruct (list_tree_ok g Hprods es w Hw) as [H1 H2].
    destruct (Hval Hu (sexpr_of (map tree_of es)) H1 H2 Hy (or_introl Hcl)) as (toks & us & v & Et & _ & Hcar & Hden & ->).
    { rewrite (list_post es w Hw). rewrite <- Hx, map_length in Hlt. replace (length syms) with (length ts); auto. clear -HF. induction HF; cbn [length]; congruence. }
    rewrite (denotes_list g Hprods es w us v Hw Hden); auto.
    rewrite <- Hx. assert (Eu : map snd toks = map snd ts).
    { apply (f_equal (map snd)) in Et. unfold toks_texts in Et. rewrite !map_map in Et. cbn [snd] in Et. etransitivity; [exact Et|]. apply map_ext. intros [[? ?] ?]. reflexivity. }
    rewrite <- Eu. clear -Hcar. induction Hcar as [|x y toks us (n & _ & ->) _ IH]; cbn [map]; constructor; eauto. }
  intros s. split.
  - intros HX. destruct (proj1 Hacc (ex_intro _ s HX)) as (Hu & tr & H1 & H2 & Hy & Hlt).
    rewrite <- Hy in HF. destruct (lisp_reading g Hsyms Hprods input ts r tr HT HF H1 H2) as (a & es & w & b & E & Ha & Hw & Hb & Hr & -> & Hx).
    assert (Hlt' : length (texts (XList es)) + length (list_steps es) < 50).
    { rewrite (list_post es w Hw) in Hlt. rewrite <- Hx, map_length. replace (length ts) with (length syms); auto. rewrite <- Hy. clear -HF. induction HF; cbn [length]; congruence. }
    exists a, es, w, (b ++ r). split; auto. split; auto. split; auto. split; [|split; auto].
    + exists b, r. split; auto. split; auto. destruct Hu as [->|[Hu|(ts' & pre & i & u & -> & _ & Hu)]]; auto.
      * apply (live_iff g Hsyms) in Hu. destruct r as [|c r]; auto. destruct Hr as (R1 & R2 & R3 & _ & R4).
        destruct Hu as [E'|[E'|[E'|[E'|[E'|[E'|(c' & ds & E' & Hc' & _)]]]]]]; auto; [injection E' as -> _; exfalso; auto..|exfalso; apply (R4 []); rewrite E'; reflexivity|injection E' as -> _; exfalso; auto].
      * left. rewrite map_app in Hx. cbn [map snd texts] in Hx. change (tx "(" :: flat_map texts es ++ [tx ")"]) with ((tx "(" :: flat_map texts es) ++ [tx ")"]) in Hx.
        apply app_inj_tail in Hx as [_ ->]. apply (live_iff g Hsyms) in Hu. destruct r as [|c r]; auto. exfalso.
        destruct Hu as [E'|[E'|[E'|[E'|[E'|[E'|(c' & ds & E' & Hc' & _)]]]]]]; try discriminate E'. injection E' as <- _. unfold tx in Hc'. cbn in Hc'. lia.
    + assert (HX' := Hval' es w Hu Hw Hy Hx Hlt'). rewrite HX in HX'. injection HX' as ->. reflexivity.
  - intros (a & es & w & r' & -> & Ha & Hw & (b & r'' & -> & Hb & Hr) & Hlt & ->).
    assert (Hu : unreadable r'').
    { destruct Hr as [->|[->| ->]]; [exact I|..]; cbn; (split; [lia|]; split; [lia|]; split; [lia|]; split; [unfold white; lia|]); intros v E; discriminate E. }
    destruct (lisp_writing g Hsyms a es w b r'' Ha Hw Hb Hu) as (ts' & HT' & HF' & Hx).
    destruct (tokenize_det _ _ (acc_det g) _ _ _ _ _ _ HT HT') as [<- <-]. pose proof (forall2_det _ _ _ _ HF HF') as ->.
    apply (Hval' es w); auto. destruct Hr as [->|Hr]; [left; auto|]. right. left. apply (live_iff g Hsyms). tauto.
Qed.
Print Assumptions C77_type_partial.

(** The types the file declares (basic_lisp.tlalr:1, 5, 10), as a check of values. *)
Fixpoint is_expr (v : js) : bool :=
  match v with
  | JObj [(k, JStr n); (f, x)] =>
    eqb k (tx "kind") &&
    ((eqb n (tx "symbol") && eqb f (tx "value") && match x with JStr s => eqb s (tx "add") | _ => false end) ||
     (eqb n (tx "int") && eqb f (tx "value") && match x with JStr _ => true | _ => false end) ||
     (eqb n (tx "sexpr") && eqb f (tx "sexpr") &&
      match x with JObj [(k', JStr n'); (f', JArr l)] => eqb k' (tx "kind") && eqb n' (tx "SExpr") && eqb f' (tx "exprs") && forallb is_expr l | _ => false end))
  | _ => false
  end.
Definition is_exprs (v : js) : bool := match v with JArr l => forallb is_expr l | _ => false end.
Definition is_sexpr (v : js) : bool :=
  match v with JObj [(k, JStr n); (f, x)] => eqb k (tx "kind") && eqb n (tx "SExpr") && eqb f (tx "exprs") && is_exprs x | _ => false end.
Definition lisp_type (n : list N) (v : js) : bool :=
  if eqb n (tx "SExpr") then is_sexpr v else if eqb n (tx "Exprs") then is_exprs v else if eqb n (tx "Expr") then is_expr v else false.
Definition lisp_holds (v : option tstr) : bool := match v with Some (TLit _) => true | _ => false end.

Lemma lisp_typed : well_typed lisp_code lisp_type lisp_holds lisp_ast.
Proof.
  assert (HN : forall m nt (x : symbol js), symbol_holds js lisp_type lisp_holds (INamed (Some m) (INon nt)) x = true -> exists v, x = SymNon nt v /\ lisp_type nt v = true).
  { intros m nt [t q|n v] H; [discriminate H|]. cbn [symbol_holds] in H. apply andb_true_iff in H as [H1 H2]. apply eqb_eq in H1 as ->. eauto. }
  assert (HC : forall x l ss, all_hold js lisp_type lisp_holds (x :: l) ss = true -> exists s ss', ss = s :: ss' /\ symbol_holds js lisp_type lisp_holds x s = true /\
    all_hold js lisp_type lisp_holds l ss' = true).
  { intros x l [|s ss] H; [discriminate H|]. cbn [all_hold] in H. apply andb_true_iff in H as [H1 H2]. eauto. }
  assert (HE : forall ss, all_hold js lisp_type lisp_holds [] ss = true -> ss = []) by (intros [|s ss] H; [auto|discriminate H]).
  intros k name b popped Hk Hh.
  destruct k as [|[|[|[|[|[|k]]]]]]; [..|destruct k; discriminate Hk]; injection Hk as <- <-; cbn [ab_syms] in Hh.
  - apply HC in Hh as (s1 & ss & -> & _ & Hh). apply HC in Hh as (s2 & ss' & -> & H2 & Hh). apply HC in Hh as (s3 & ss & -> & _ & Hh). apply HE in Hh as ->.
    apply HN in H2 as (v & -> & H2). exact H2.
  - apply HC in Hh as (s1 & ss & -> & H1 & Hh). apply HC in Hh as (s2 & ss' & -> & H2 & Hh). apply HE in Hh as ->.
    apply HN in H1 as (v & -> & H1). apply HN in H2 as (w & -> & H2). change (is_expr v = true) in H1. change (is_exprs w = true) in H2. destruct w as [|l|]; try discriminate H2.
    change (is_expr v && forallb is_expr l = true). apply andb_true_iff. auto.
  - apply HC in Hh as (s1 & ss & -> & H1 & Hh). apply HE in Hh as ->. apply HN in H1 as (v & -> & H1). change (is_expr v = true) in H1.
    change (is_expr v && true = true). rewrite H1. reflexivity.
  - apply HC in Hh as (s1 & ss & -> & H1 & Hh). apply HE in Hh as ->. apply HN in H1 as (v & -> & H1). change (is_sexpr v = true) in H1.
    change (match v with JObj [(k', JStr n'); (f', JArr l)] => eqb k' (tx "kind") && eqb n' (tx "SExpr") && eqb f' (tx "exprs") && forallb is_expr l | _ => false end = true).
    destruct v as [| |[|[k [n| |]] [|[f x] [|]]]]; try discriminate H1. unfold is_sexpr in H1. destruct x as [|l|]; [apply andb_true_iff in H1 as [_ H1]; discriminate H1|exact H1|apply andb_true_iff in H1 as [_ H1]; discriminate H1].
  - apply HC in Hh as (s1 & ss & -> & H1 & Hh). apply HE in Hh as ->. cbn [symbol_holds] in H1. destruct s1 as [[n [[v| |]|]|] q|]; try discriminate H1.
    change (eqb v (tx "add") = true) in H1. change (eqb v (tx "add") || false || false = true). rewrite H1. reflexivity.
  - apply HC in Hh as (s1 & ss & -> & H1 & Hh). apply HE in Hh as ->. cbn [symbol_holds] in H1. destruct s1 as [[n [[v| |]|]|] q|]; try discriminate H1. reflexivity.
Qed.

(** The list ( add 12(21)) with what C77 says of it, computed with the declared types. *)
Definition x77 : list sexp := [XAdd; XInt (tx "12"); XList [XInt (tx "21")]].
Example C77_nonvacuous :
  Writes (XList x77) (tx "( add12(21))") /\ ignored (tx " #!") /\ ignored_ts (tx " ad") /\ length (texts (XList x77)) + length (list_steps x77) = 17 /\
  exists g l c, grammar_from_ast lisp_ast = Ok g /\ lalr_new lisp_regex ehash g = Ok l /\ lex_ctx_new (l_lexer l) = Ok c /\
  well_typed lisp_code lisp_type lisp_holds lisp_ast /\ (forall r v, named lisp_ast (IReg r) -> lisp_holds (Some (TLit v)) = true) /\ fits 200 (l_lexer l) /\ own_codes abc /\
  lalr_parse l (tx "( add12(21)) #!") = Ok (list_steps x77) /\ lalr_parse l (tx "( add 12 (21)") = Panic PInvalidToken /\ lalr_parse l (tx "()") = Panic PInvalidToken /\
  ts_pipeline 200 abc (tables_of c) (the_tables g (l_tables l)) (EmitProduction js 200 lisp_ast lisp_code lisp_type lisp_holds) (tx "( add12(21)) ad") =
    Some (PStack [SymNon (tx "SExpr") (list_value x77)]).
Proof.
  assert (Hd : forall c, (48 <=? c)%N && (c <=? 57)%N = true -> digit c) by (intros c H; apply andb_true_iff in H as [H1 H2]; apply N.leb_le in H1, H2; split; auto).
  assert (Hw : white 32) by (right; reflexivity).
  split; [|split; [|split; [|split; [reflexivity|]]]].
  - apply (WList _ (tx " ") (tx "add12(21)") []); [constructor; [exact Hw|constructor]| |constructor].
    apply (WMore XAdd (tx "add") [] _ _ (tx "12(21)")); [constructor|constructor| |discriminate].
    apply (WMore _ (tx "12") [] _ _ (tx "(21)")); [apply (WInt 49 (tx "2")); [lia|repeat constructor; apply Hd; reflexivity]|constructor| |reflexivity].
    constructor. apply (WList _ [] (tx "21") []); [constructor| |constructor]. constructor. apply (WInt 50 (tx "1")); [lia|repeat constructor; apply Hd; reflexivity].
  - exists (tx " "), (tx "#!"). split; auto. split; [constructor; [exact Hw|constructor]|]. cbn. split; [lia|]. split; [lia|]. split; [lia|]. split; [unfold white; lia|]. intros v E. discriminate E.
  - exists (tx " "), (tx "ad"). split; auto. split; [constructor; [exact Hw|constructor]|auto].
  - destruct C57_nonvacuous as (g & l & c & st & hs & _ & H2 & _ & H4 & _ & _ & _ & _ & H9 & H10 & _ & _ & _ & _ & _ & H16 & _).
    exists g, l, c. do 3 (split; auto). split; [exact lisp_typed|]. split; [reflexivity|]. do 2 (split; auto). clear - H2 H4 H16.
    vm_compute in H2. injection H2 as <-. vm_compute in H4. injection H4 as <-. vm_compute in H16. injection H16 as <-. split; [compute_ok|]. split; [compute_ok|]. split; compute_ok.
Qed.

(** The grammar printed in the README (README.md:20-42), whose first line is a comment, is not
    read; without that line it is, and the text of README.md:59 is parsed. *)
Definition readme_text : str := lines [
  tx "// basic_lisp.tlalr";
  tx "";
  tx "export start SExpr: ({ kind: ""sexpr"", exprs: Expr[] }) = [";
  tx "    ""("" <exprs: Exprs> "")"" => ({ kind: ""sexpr"", exprs })";
  tx "]";
  tx "";
  tx "export Exprs: (Expr[]) = [";
  tx "    <e1: Expr> <e2: Exprs> => ([e1, ...e2]),";
  tx "    <e: Expr> => ([e])";
  tx "]";
  tx "";
  tx "export Expr: () = [";
  tx "    <int: Int> => ({ kind: ""expr"", value: int }),";
  tx "    <sym: Symbol> => ({ kind: ""expr"", value: sym }),";
  tx "]";
  tx "";
  tx "export Int: ({ kind: ""int"", int: number }) = [";
  tx "    <int: r""[1-9][0-9]*""> => ({ kind: ""int"", int: parseInt(int) })";
  tx "]";
  tx "";
  tx "export Symbol: ({ kind: ""sym"", sym: string }) = [";
  tx "    <sym: r""[^() ]*""> => ({ kind: ""sym"", sym })";
  tx "]"].
(** The regexes of that file, as regex-syntax parses them. *)
Definition readme_regex (s : str) : option hir :=
  if eqb s (tx "[1-9][0-9]*") then Some (HConcat [HClass [(49, 57)%N]; HRep ZeroOrMore (HClass [(48, 57)%N])])
  else if eqb s (tx "[^() ]*") then Some (HRep ZeroOrMore (HClass [(0, 31)%N; (33, 39)%N; (42, 1114111)%N])) else None.
Theorem C77_readme_refuted :
  parse_grammar readme_text = Panic PUnwrapNone /\
  exists ast g l ps, parse_grammar (skipn (length (tx "// basic_lisp.tlalr")) readme_text) = Ok ast /\ grammar_from_ast ast = Ok g /\ lalr_new readme_regex ehash g = Ok l /\
    lalr_parse l (tx "(add 34 35)") = Ok ps.
Proof.
  split; [compute_ok|].
  destruct (parse_grammar (skipn (length (tx "// basic_lisp.tlalr")) readme_text)) as [ast| |] eqn:Ea; [|vm_compute in Ea; discriminate Ea..]. vm_compute in Ea. injection Ea as <-.
  match goal with |- exists a, _ => idtac end.
  eexists. match goal with |- exists g l ps, Ok ?a = _ /\ _ => destruct (grammar_from_ast a) as [g| |] eqn:Eg; [|vm_compute in Eg; discriminate Eg..] end.
  destruct (lalr_new readme_regex ehash g) as [l| |] eqn:El; [|vm_compute in Eg; injection Eg as <-; vm_compute in El; discriminate El..].
  destruct (lalr_parse l (tx "(add 34 35)")) as [ps| |] eqn:Ep; [|vm_compute in Eg; injection Eg as <-; vm_compute in El; injection El as <-; vm_compute in Ep; discriminate Ep..].
  exists g, l, ps. auto.
Qed.
Print Assumptions C77_readme_refuted.
