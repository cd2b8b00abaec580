(** Property C71: which sentences are too long for the type-level parser. *)
From Coq Require Import Ascii String ZArith.
From Verif Require Import Base Text Regex Nfa Dfa Lex LexSpec LexLoop LexProofs Utf8Spec Utf8Proofs Grammar GrammarSpec GrammarProofs First Item Table TableProofs TableFacts LexGrammar LexGrammarProofs
  Parse ParseSpec Auto ParseProofs ParseTerm TreeFacts PropsParse Lalr EndSpec EndProofs PropsGrammar PropsEnd Witness
  LexGen LexGenProofs LexGenLexer TsText TsTextFacts TsScan TsTables TsModule TsModuleFacts ParseGenSpec ParseGen ParseGenProofs ParseGenFile ParseGenEmit ParseGenCheck PropsLexGen PropsParseGen Lisp
  TsUtil TsLex TsLexProofs PropsTsLex TsParse TsParseSpec TsParseProofs PropsTsParse IsoGrammar PropsTsError
  GrammarFile GrammarFileSpec GrammarFileProofs PropsGrammarFile PropsWhole LongSpec.
Local Open Scope list_scope.

Lemma tree_leaves g start w tr : parse_tree g start w tr -> leaves tr = length w.
Proof.
  intros (_ & _ & H). rewrite <- leaves_yield. apply (f_equal (@length _)) in H. unfold symbols in H. rewrite !map_length in H. congruence.
Qed.
Lemma tree_inner g start w tr : parse_tree g start w tr -> 1 <= inner tr.
Proof. intros (Ht & Hr & _). destruct tr as [x|p ts]; cbn [inner]; [|lia]. inversion Ht as [x' Hx|]; subst. cbn [root] in Hr. injection Hr as ->. exfalso. eapply Hx. reflexivity. Qed.

(** For every grammar file as in C47, whatever the code of its actions, its types and the values of
    the tokens: what gets a value has a parse tree with at most 49 nodes, so at most 48 tokens. *)
Theorem C71_small_partial :
  forall hash ast g t L st, file_ast ast -> grammar_from_ast ast = Ok g -> find ap_start ast = Some st -> make_tables hash g = Ok t ->
  quotes_ok g -> codes_ok ast -> kinds_distinct g ->
  exists text P, parse_generate ast (Lalr g L t) = Ok text /\ ReadParse text P /\
  forall V size code has_type regex_holds us tokens w l, 50 <= size -> Forall2 (is_token g) us tokens -> ParseSpec.ended tokens w ->
  Parse V size P (EmitProduction V size ast code has_type regex_holds) us = PStack l ->
  length w <= 48 /\ exists tr, parse_tree g (ap_name st) w tr /\ leaves tr + inner tr <= 49.
Proof.
  intros hash ast g t L st Hf Hg Hst Ht Hq Hc Hk. destruct (C47_tables_partial hash ast g t L Hf Hg Ht Hq Hc Hk) as (text & P & E & HR & _ & TG).
  exists text, P. split; auto. split; auto. intros V size code has_type regex_holds us tokens w l Hs Hus Hend HX.
  destruct (tables_sim hash ast g t P st Hf Hg Hst Ht (ex_intro _ text HR) TG V size code has_type regex_holds us tokens w Hs Hus Hend) as [(_ & q & a & l' & H)|H];
    rewrite HX in H; [discriminate|]. unfold agrees in H. destruct (parse_impl g t tokens) as [ps|p|].
  - destruct (Nat.ltb_spec (length w + length ps) 50) as [Hlt|]; [|discriminate]. destruct H as (tr & v & El & HP & -> & HD).
    rewrite inner_postorder in Hlt. pose proof (tree_leaves _ _ _ _ HP). pose proof (tree_inner _ _ _ _ HP). split; [lia|]. exists tr. split; auto. lia.
  - exfalso. destruct H as [H|[(_ & a & l' & H)|[_ H]]]; discriminate.
  - discriminate.
Qed.
Print Assumptions C71_small_partial.

(** And that is all that is asked for, if the checks of the actions pass: a tree of the Rust parser
    has a value when it has at most 49 nodes, and the type is the depth message when it has more. *)
Theorem C71_exact_partial :
  forall hash ast g t L st, file_ast ast -> grammar_from_ast ast = Ok g -> find ap_start ast = Some st -> make_tables hash g = Ok t ->
  quotes_ok g -> codes_ok ast -> kinds_distinct g ->
  exists text P, parse_generate ast (Lalr g L t) = Ok text /\ ReadParse text P /\
  forall V size code has_type regex_holds us tokens w tr, 50 <= size -> Forall2 (is_token g) us tokens -> ParseSpec.ended tokens w ->
  literals_carried ast us -> regexes_pass regex_holds ast us -> well_typed code has_type regex_holds ast ->
  parse_tree g (ap_name st) w tr -> parse_impl g t tokens = Ok (postorder tr) ->
  let X := Parse V size P (EmitProduction V size ast code has_type regex_holds) us in
  if leaves tr + inner tr <=? 49 then exists v, X = PStack [SymNon (ap_name st) v] else X = PDepth.
Proof.
  intros hash ast g t L st Hf Hg Hst Ht Hq Hc Hk. destruct (C43_parsers_agree_partial hash ast g t L st Hf Hg Hst Ht Hq Hc Hk) as (text & P & E & HR & H).
  exists text, P. split; auto. split; auto. intros V size code has_type regex_holds us tokens w tr Hs Hus Hend H1 H2 H3 HT Ep X.
  specialize (H V size code has_type regex_holds us tokens w Hs Hus Hend H1 H2 H3). rewrite Ep in H. cbn [agrees] in H. fold X in H.
  rewrite inner_postorder, <- (tree_leaves _ _ _ _ HT) in H.
  destruct (Nat.ltb_spec (leaves tr + inner tr) 50), (Nat.leb_spec (leaves tr + inner tr) 49); try lia.
  - destruct H as (tr' & v & Ex & _). eauto.
  - exact H.
Qed.
Print Assumptions C71_exact_partial.

(** So a grammar with sentences of every length has sentences without a value, whatever its code. *)
Theorem C71_infinite_refuted :
  forall hash ast g t L st, file_ast ast -> grammar_from_ast ast = Ok g -> find ap_start ast = Some st -> make_tables hash g = Ok t ->
  quotes_ok g -> codes_ok ast -> kinds_distinct g ->
  exists text P, parse_generate ast (Lalr g L t) = Ok text /\ ReadParse text P /\
  ((forall n, exists w tr, parse_tree g (ap_name st) w tr /\ n <= length w) ->
   exists w tr, parse_tree g (ap_name st) w tr /\
   forall V size code has_type regex_holds us, 50 <= size -> Forall2 (is_token g) us (w ++ [0]) ->
   forall l, Parse V size P (EmitProduction V size ast code has_type regex_holds) us <> PStack l).
Proof.
  intros hash ast g t L st Hf Hg Hst Ht Hq Hc Hk. destruct (C71_small_partial hash ast g t L st Hf Hg Hst Ht Hq Hc Hk) as (text & P & E & HR & H).
  exists text, P. split; auto. split; auto. intros Hinf. destruct (Hinf 49) as (w & tr & HT & Hl). exists w, tr. split; auto.
  intros V size code has_type regex_holds us Hs Hus l HX.
  destruct (file_plain _ _ Hf Hg) as [[He Heof] Hfr].
  assert (Hend : ParseSpec.ended (w ++ [0]) w).
  { split; auto. intros H0. destruct HT as (Ht1 & Hr & Hsy). unfold symbols in Hsy.
    apply (in_map (nth_error (g_tokens g))) in H0. rewrite Hsy in H0. destruct (prods_rules _ _ Hg) as (st0 & _ & W & _).
    change (nth_error (g_tokens g) 0) with (get_token g 0) in H0. rewrite (token_eof g _ W) in H0. apply in_map_iff in H0 as (x & Ex & Hx). injection Ex as ->.
    exact (no_eof g tr Heof Ht1 ltac:(rewrite Hr; discriminate) Hx). }
  destruct (H V size code has_type regex_holds us (w ++ [0]) w l Hs Hus Hend HX) as [Hle _]. lia.
Qed.
Print Assumptions C71_infinite_refuted.

(** ** Texts *)

(** For a grammar file as in C50, whatever the code and the types: a text has a value only if it has
    at most 48 tokens, and a parse tree of them with at most 49 nodes. *)
Theorem C71_text_partial :
  forall parse hash ast g l st, file_ast ast -> grammar_from_ast ast = Ok g -> find ap_start ast = Some st -> lalr_new parse hash g = Ok l ->
  quotes_ok g -> codes_ok ast -> kinds_distinct g -> (forall s, named ast (IStr s) -> unq 39 s = Some s) ->
  exists ltext T ptext P, lex_generate (l_lexer l) = Ok ltext /\ ReadLex ltext T /\ parse_generate ast l = Ok ptext /\ ReadParse ptext P /\
  forall V size code has_type regex_holds chars input, fits size (l_lexer l) -> own_codes chars ->
  (forall c, In c input -> map_get c chars <> None /\ (c <= N.of_nat size)%N) -> length input <= size ->
  forall s, ts_pipeline size chars T P (EmitProduction V size ast code has_type regex_holds) input = Some (PStack s) ->
  exists toks rest tr, reading parse g input toks rest /\ length toks <= 48 /\
    tree_ok g tr /\ root g tr = Some (SNon (ap_name st)) /\ yield tr = toks_syms toks /\ length toks + inner tr <= 49 /\
    (forall out, lex (l_lexer l) input = Ok out -> length out = length toks).
Proof.
  intros parse hash ast g l st Hf Hg Hst Hl Hq Hc Hk Hlit. destruct (new_parts _ _ _ _ Hl) as (Egl & HL & Ht).
  destruct (from_grammar_inv _ _ _ HL) as (tokens & Et & EL).
  pose proof (grammar_readable _ _ _ Et Hq) as Hr.
  destruct (C47_tables_partial hash ast g (l_tables l) (l_lexer l) Hf Hg Ht Hq Hc Hk) as (ptext & P & Ep & HRP & _ & TG).
  destruct (C41_tables_partial tokens _ EL Hr) as (ltext & T & E1 & E2 & Hdet & _). exists ltext, T, ptext, P.
  split; auto. split; auto. split; [rewrite <- Ep; rewrite <- Egl; destruct l; reflexivity|]. split; auto.
  intros V size code has_type regex_holds chars input Hfit Hown Hin Hlen s HX.
  destruct (lex_all tokens _ input EL) as (lv & ac & ts & r & i & HT & Elex & _ & Hrun & _ & _ & _ & Hs & _).
  assert (Hts : forall p j u, In (p, j, u) ts -> exists td h, nth_error tokens j = Some (td, h) /\ Lang h u).
  { intros p j u Hx. destruct (tokenize_longest _ _ _ _ _ _ HT p j u Hx) as (a & b & _ & _ & (_ & Hau & _)).
    apply Hs in Hau as (h & Hj & HLg). rewrite nth_error_map in Hj. destruct (nth_error tokens j) as [[td h']|]; [|discriminate]. injection Hj as <-. eauto. }
  destruct (ts_lex_chars tokens _ size chars input EL Hr Hfit Hown Hin Hlen) as (text' & T' & E1' & E2' & Hcase).
  rewrite E1 in E1'. apply ok_inj in E1'. subst text'. pose proof (Hdet _ E2') as ->.
  destruct (Hcase _ _ Hrun) as [(Ei & us & Ets & Hsame)|(Hi & c & _ & Ets)]; [|unfold ts_pipeline in HX; rewrite Ets in HX; discriminate].
  destruct (lexed_tokens parse ast g l Hg Hq Hk HL Egl Hlit tokens ts us Et Hts Hsame) as (w & _ & Hwend & Hwl & Hus & _ & _).
  unfold ts_pipeline in HX. rewrite Ets in HX. apply (f_equal (fun o => match o with Some x => x | None => PNever end)) in HX.
  assert (HX' : Parse V size P (EmitProduction V size ast code has_type regex_holds) (us ++ [EOF]) = PStack s) by exact HX. clear HX. rename HX' into HX.
  assert (H50 : 50 <= size) by (destruct Hfit as (H50 & _); lia).
  destruct (tables_sim hash ast g _ P st Hf Hg Hst Ht (ex_intro _ ptext HRP) TG V size code has_type regex_holds (us ++ [EOF]) (w ++ [0]) w H50 Hus Hwend) as [(_ & q & a & l' & H)|H];
    rewrite HX in H; [discriminate|]. unfold agrees in H. destruct (parse_impl g (l_tables l) (w ++ [0])) as [ps|p|].
  2: { exfalso. destruct H as [H|[(_ & a & l' & H)|[_ H]]]; discriminate. }
  2: discriminate.
  destruct (Nat.ltb_spec (length w + length ps) 50) as [Hlt|]; [|discriminate]. destruct H as (tr & v & El & HP & -> & HD). clear El HD.
  rewrite inner_postorder in Hlt. pose proof (tree_inner _ _ _ _ HP) as Hone.
  destruct (toks_of parse g tokens ts us Et Hq Hts Hsame) as (toks & Em & Htoks & Hcar).
  assert (Hn : length toks = length w) by (rewrite Hwl; apply (f_equal (@length _)) in Em; rewrite !map_length in Em; exact Em).
  assert (Hus' : Forall2 (is_token g) us w).
  { apply Forall2_app_inv_l in Hus as (w1 & w2 & H1 & H2 & E). inversion H2 as [|? k ? w3 _ H3]; subst. inversion H3; subst.
    apply app_inj_tail in E as [-> _]. exact H1. }
  assert (Hy : yield tr = toks_syms toks).
  { destruct HP as (_ & _ & Hsy). eapply symbols_fun; [exact Hsy|]. eapply numbers_symbols; eauto. }
  exists toks, r, tr. split; [split; [|exact Htoks]|]. { unfold toks_texts. rewrite Em. exact (tokenize_layout _ _ _ _ _ _ HT). }
  split; [lia|]. split; [apply HP|]. split; [apply HP|]. split; auto. split; [lia|].
  intros out Eo. rewrite Hn, Hwl. rewrite Elex in Eo. clear - Eo. revert out Eo. induction ts as [|x ts IH]; intros out E; [injection E as <-; reflexivity|].
  cbn [mapM] in E. destruct (LexProofs.token_of tokens input x) as [t| |]; try discriminate. cbn [bind] in E.
  destruct (mapM (LexProofs.token_of tokens input) ts) as [o| |]; try discriminate. apply ok_inj in E. subst out. cbn [length]. f_equal. apply IH. reflexivity.
Qed.
Print Assumptions C71_text_partial.

(** ** The committed grammar *)

(** Nodes of a tree, by weights of symbols. *)
Section Weight.
  Variable g : grammar.
  Variable wt : sym -> Z.
  Hypothesis Hterm : forall x, terminal x -> (wt x <= -3)%Z.
  Hypothesis Hrule : forall pr, In pr (g_prods g) -> (wt (SNon (p_name pr)) <= 2 + fold_right (fun x n => wt x + n) 0 (p_syms pr))%Z.
  Lemma tree_weight tr : tree_ok g tr -> forall x, root g tr = Some x -> (3 * Z.of_nat (leaves tr) + wt x <= 2 * Z.of_nat (inner tr))%Z.
  Proof.
    induction tr as [y|p ts IH] using tree_ind'; intros Ho x Hr; inversion Ho as [y' Hy|p' pr ts' Hp Hts Hm]; subst.
    - cbn [root] in Hr. injection Hr as ->. cbn [leaves inner]. specialize (Hterm x Hy). lia.
    - cbn [root] in Hr. rewrite Hp in Hr. injection Hr as <-. specialize (Hrule pr (nth_error_In _ _ Hp)). cbn [leaves inner].
      assert (G : (3 * Z.of_nat (list_sum (map leaves ts)) + fold_right (fun x n => wt x + n) 0 (p_syms pr) <= 2 * Z.of_nat (list_sum (map inner ts)))%Z); [|lia].
      clear Hp Ho Hrule. revert Hm. generalize (p_syms pr) as l. induction ts as [|t ts IHt]; intros [|y l] Hm; try discriminate; cbn [map list_sum fold_right] in *.
      injection Hm as Hy Hm. inversion IH as [|? ? H1 H2]; subst. inversion Hts as [|? ? H3 H4]; subst.
      specialize (H1 H3 y Hy). specialize (IHt H2 H4 l Hm). unfold list_sum in *. cbn [fold_right]. lia.
  Qed.
End Weight.

Definition lisp_weight (x : sym) : Z :=
  match x with
  | SNon n => if eqb n (tx "Exprs") then 1 else if eqb n (tx "Expr") then -1 else -3
  | _ => -3
  end%Z.
(** Whatever is done with them, a text of the committed grammar has a value only if it has at most
    20 tokens. *)
Theorem C71_lisp_refuted :
  exists g l st, grammar_from_ast lisp_ast = Ok g /\ find ap_start lisp_ast = Some st /\ lalr_new lisp_regex ehash g = Ok l /\
  exists ltext T ptext P, lex_generate (l_lexer l) = Ok ltext /\ ReadLex ltext T /\ parse_generate lisp_ast l = Ok ptext /\ ReadParse ptext P /\
  forall V size code has_type regex_holds chars input, fits size (l_lexer l) -> own_codes chars ->
  (forall c, In c input -> map_get c chars <> None /\ (c <= N.of_nat size)%N) -> length input <= size ->
  forall s out, ts_pipeline size chars T P (EmitProduction V size lisp_ast code has_type regex_holds) input = Some (PStack s) ->
  lex (l_lexer l) input = Ok out -> length out <= 20.
Proof.
  destruct C57_nonvacuous as (g & l & c & st & hs & Hfs & Eg & Hst & El & Hq & Hc & Hk & Hlit & _).
  assert (Hf : file_ast lisp_ast) by (apply (C52_file_ast lisp_text), C51_reading, Hfs).
  destruct (C71_text_partial lisp_regex ehash lisp_ast g l st Hf Eg Hst El Hq Hc Hk Hlit) as (ltext & T & ptext & P & E1 & E2 & E3 & E4 & H).
  exists g, l, st. split; auto. split; auto. split; auto. exists ltext, T, ptext, P. do 4 (split; auto).
  intros V size code has_type regex_holds chars input Hfit Hown Hin Hlen s out HX Eo.
  destruct (H V size code has_type regex_holds chars input Hfit Hown Hin Hlen s HX) as (toks & rest & tr & _ & _ & Ht & Hr & Hy & Hn & Hlo).
  rewrite (Hlo out Eo). clear - Eg Hst Ht Hr Hy Hn.
  assert (Hl : leaves tr = length toks) by (rewrite <- leaves_yield, Hy; unfold toks_syms; apply map_length).
  pose proof (tree_weight g lisp_weight) as HW.
  assert (HG : (3 * Z.of_nat (leaves tr) + lisp_weight (SNon (ap_name st)) <= 2 * Z.of_nat (inner tr))%Z).
  { apply HW; auto.
    - intros x Hx. destruct x; cbn [lisp_weight]; try lia. exfalso. eapply Hx. reflexivity.
    - vm_compute in Eg. injection Eg as <-. intros pr Hp. cbn [g_prods] in Hp.
      repeat (destruct Hp as [<-|Hp]; [vm_compute; discriminate|]). destruct Hp. }
  assert (Hw : lisp_weight (SNon (ap_name st)) = (-3)%Z) by (vm_compute in Hst; injection Hst as <-; vm_compute; reflexivity).
  rewrite Hw in HG. lia.
Qed.
Print Assumptions C71_lisp_refuted.

(** 20 tokens can be enough: nine parentheses around two numbers. A tenth is too much. *)
Definition nested (n : nat) : list N := repeat 40%N n ++ tx "1 1" ++ repeat 41%N n.
Example C71_nonvacuous :
  exists g l c st, file_ast lisp_ast /\ grammar_from_ast lisp_ast = Ok g /\ find ap_start lisp_ast = Some st /\ lalr_new lisp_regex ehash g = Ok l /\
  quotes_ok g /\ codes_ok lisp_ast /\ kinds_distinct g /\ (forall s, named lisp_ast (IStr s) -> unq 39 s = Some s) /\ fits 200 (l_lexer l) /\ own_codes abc /\
  lex_ctx_new (l_lexer l) = Ok c /\
  (exists v, ts_pipeline 200 abc (tables_of c) (the_tables g (l_tables l)) (EmitProduction nat 200 lisp_ast count (fun _ _ => true) (fun _ => true)) (nested 9) =
    Some (PStack [SymNon (tx "SExpr") v])) /\
  (exists out, lex (l_lexer l) (nested 9) = Ok out /\ length out = 20) /\
  (exists ps, lalr_parse l (nested 10) = Ok ps) /\
  ts_pipeline 200 abc (tables_of c) (the_tables g (l_tables l)) (EmitProduction nat 200 lisp_ast count (fun _ _ => true) (fun _ => true)) (nested 10) = Some PDepth.
Proof.
  destruct C57_nonvacuous as (g & l & c & st & hs & Hfs & Eg & Hst & El & Hq & Hc & Hk & Hlit & Hfit & Hown & _ & _ & _ & _ & _ & EC & _).
  assert (Hf : file_ast lisp_ast) by (apply (C52_file_ast lisp_text), C51_reading, Hfs).
  exists g, l, c, st. do 11 (split; auto). clear - Eg El EC.
  vm_compute in Eg. injection Eg as <-. vm_compute in El. injection El as <-. vm_compute in EC. injection EC as <-.
  split; [eexists; vm_compute; reflexivity|]. split; [eexists; split; vm_compute; reflexivity|]. split; [eexists; vm_compute; reflexivity|]. vm_compute. reflexivity.
Qed.

(** A sentence of 48 tokens has a value, if the grammar has a rule for it. *)
Definition all_at_once : list aprod := [one "S" [repeat (IStr (tx "a")) 48] true].
Example C71_48 :
  let us := repeat (TTok (tx "a") (Some (TLit (tx "a")))) 48 ++ [EOF] in
  exists g t, file_ast all_at_once /\ grammar_from_ast all_at_once = Ok g /\ make_tables ehash g = Ok t /\ quotes_ok g /\ codes_ok all_at_once /\ kinds_distinct g /\
  Parse nat 200 (the_tables g t) (EmitProduction nat 200 all_at_once count (fun _ _ => true) (fun _ => true)) us = PStack [SymNon (tx "S") 1].
Proof.
  intros us. destruct (grammar_from_ast all_at_once) as [g| |] eqn:Eg; [|vm_compute in Eg; discriminate Eg..].
  destruct (make_tables ehash g) as [t| |] eqn:Et; [|vm_compute in Eg; injection Eg as <-; vm_compute in Et; discriminate Et..].
  exists g, t. split; [apply file_ast_b_ok; vm_compute; reflexivity|]. split; auto. split; auto.
  vm_compute in Eg. injection Eg as <-. vm_compute in Et. injection Et as <-.
  split; [apply quotes_b_ok; vm_compute; reflexivity|]. split; [apply codes_b_ok; vm_compute; reflexivity|]. split; [apply kinds_b_ok; vm_compute; reflexivity|].
  vm_compute. reflexivity.
Qed.

(** The grammar of C43 has sentences of every length. *)
Example C71_infinite_nonvacuous :
  exists g st, grammar_from_ast many = Ok g /\ find ap_start many = Some st /\ forall n, exists w tr, parse_tree g (ap_name st) w tr /\ n <= length w.
Proof.
  destruct (grammar_from_ast many) as [g| |] eqn:Eg; [|vm_compute in Eg; discriminate Eg..].
  destruct (find ap_start many) as [st|] eqn:Es; [|discriminate Es]. exists g, st. split; auto. split; auto.
  vm_compute in Eg. injection Eg as <-. vm_compute in Es. injection Es as <-.
  induction n as [|n (w & tr & (H1 & H2 & H3) & Hn)].
  - exists [2], (Node 2 [Leaf (Grammar.SStr (tx "b"))]). split; [|cbn [length]; lia]. split; [|split; [reflexivity|reflexivity]].
    eapply ok_node; [reflexivity| |reflexivity]. constructor; [constructor; intros m; discriminate|constructor].
  - exists (1 :: w ++ [2]), (Node 1 [Leaf (Grammar.SStr (tx "a")); tr; Leaf (Grammar.SStr (tx "b"))]). split; [|cbn [length]; rewrite app_length; cbn [length]; lia].
    split; [|split; [reflexivity|]].
    + eapply ok_node; [reflexivity| |].
      * constructor; [constructor; intros m; discriminate|]. constructor; [exact H1|]. constructor; [constructor; intros m; discriminate|constructor].
      * cbn [map p_syms]. rewrite H2. reflexivity.
    + unfold symbols in *. cbn [yield flat_map map app]. rewrite !map_app, H3, app_nil_r || rewrite !map_app, H3. cbn [map]. reflexivity.
Qed.
