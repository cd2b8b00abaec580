(** Properties C43 and C50: the type-level parser against the Rust parser, and the type-level lexer
    and parser together against the Rust library. *)
From Coq Require Import Ascii String.
From Verif Require Import Base Text Regex Nfa Dfa Lex LexSpec LexLoop LexProofs Utf8Spec Utf8Proofs Grammar GrammarSpec GrammarProofs First Item Table TableProofs TableFacts LexGrammar LexGrammarProofs
  Parse ParseSpec Auto ParseProofs ParseTerm Lalr EndSpec EndProofs PropsGrammar PropsEnd Witness
  LexGen LexGenProofs LexGenLexer TsText TsTextFacts TsScan TsTables TsModule TsModuleFacts ParseGenSpec ParseGen ParseGenProofs ParseGenFile ParseGenEmit ParseGenCheck PropsLexGen PropsParseGen Lisp
  TsUtil TsLex TsLexProofs PropsTsLex TsParse TsParseSpec TsParseProofs.
Local Open Scope list_scope.

(** ** C43 *)

Lemma tables_sim hash ast g t P st : file_ast ast -> grammar_from_ast ast = Ok g -> find ap_start ast = Some st -> make_tables hash g = Ok t ->
  (exists text, ReadParse text P) -> tables_of_grammar g t P ->
  forall V size code has_type regex_holds us tokens w, 50 <= size -> Forall2 (is_token g) us tokens -> ParseSpec.ended tokens w ->
  let X := Parse V size P (EmitProduction V size ast code has_type regex_holds) us in
  (~ (literals_carried ast us /\ regexes_pass regex_holds ast us /\ well_typed code has_type regex_holds ast) /\ exists q a l, X = PAction q a l) \/
  agrees g code (ap_name st) us w (parse_impl g t tokens) X.
Proof.
  intros Hf Hg Hst Ht (text & b & _ & HR) TG V size code has_type regex_holds us tokens w Hs Hus Hend X.
  destruct (file_plain _ _ Hf Hg) as [[He Heof] Hfr]. destruct (grammar_from_ast_ok _ _ Hg) as (st' & Hst' & W & Est & _).
  assert (st' = st) by congruence. subst st'.
  eapply (sim_parse ast g (ap_name st) t P); eauto; try tauto. eapply tables_auto; eauto.
Qed.

(** For a grammar file as in C47, whose named symbols and code pass the checks of the generated
    actions: on the generated tables the TypeScript parser gives the result of the Rust parser, for
    every sequence of tokens with EOF at its end, as long as 49 steps are enough. *)
Theorem C43_parsers_agree_partial :
  forall hash ast g t L st, file_ast ast -> grammar_from_ast ast = Ok g -> find ap_start ast = Some st -> make_tables hash g = Ok t ->
  quotes_ok g -> codes_ok ast -> kinds_distinct g ->
  exists text P, parse_generate ast (Lalr g L t) = Ok text /\ ReadParse text P /\
  forall V size code has_type regex_holds us tokens w, 50 <= size -> Forall2 (is_token g) us tokens -> ParseSpec.ended tokens w ->
  literals_carried ast us -> regexes_pass regex_holds ast us -> well_typed code has_type regex_holds ast ->
  agrees g code (ap_name st) us w (parse_impl g t tokens) (Parse V size P (EmitProduction V size ast code has_type regex_holds) us).
Proof.
  intros hash ast g t L st Hf Hg Hst Ht Hq Hc Hk. destruct (C47_tables_partial hash ast g t L Hf Hg Ht Hq Hc Hk) as (text & P & E & HR & _ & TG).
  exists text, P. split; auto. split; auto. intros V size code has_type regex_holds us tokens w Hs Hus Hend H1 H2 H3.
  destruct (tables_sim hash ast g t P st Hf Hg Hst Ht (ex_intro _ text HR) TG V size code has_type regex_holds us tokens w Hs Hus Hend) as [[Hn _]|H]; auto.
  exfalso. apply Hn. auto.
Qed.
Print Assumptions C43_parsers_agree_partial.

(** Acceptance: exactly when the Rust parser accepts in fewer than 50 steps. *)
Theorem C43_accepts_iff_partial :
  forall hash ast g t L st, file_ast ast -> grammar_from_ast ast = Ok g -> find ap_start ast = Some st -> make_tables hash g = Ok t ->
  quotes_ok g -> codes_ok ast -> kinds_distinct g ->
  exists text P, parse_generate ast (Lalr g L t) = Ok text /\ ReadParse text P /\
  forall V size code has_type regex_holds us tokens w, 50 <= size -> Forall2 (is_token g) us tokens -> ParseSpec.ended tokens w ->
  literals_carried ast us -> regexes_pass regex_holds ast us -> well_typed code has_type regex_holds ast ->
  (exists l, Parse V size P (EmitProduction V size ast code has_type regex_holds) us = PStack l) <->
  exists ps, parse_impl g t tokens = Ok ps /\ length w + length ps < 50.
Proof.
  intros hash ast g t L st Hf Hg Hst Ht Hq Hc Hk. destruct (C43_parsers_agree_partial hash ast g t L st Hf Hg Hst Ht Hq Hc Hk) as (text & P & E & HR & H).
  exists text, P. split; auto. split; auto. intros V size code has_type regex_holds us tokens w Hs Hus Hend H1 H2 H3.
  specialize (H V size code has_type regex_holds us tokens w Hs Hus Hend H1 H2 H3). unfold agrees in H. split.
  - intros [l El]. rewrite El in H. destruct (parse_impl g t tokens) as [ps|p|].
    + destruct (Nat.ltb_spec (length w + length ps) 50); [eauto|discriminate].
    + exfalso. destruct H as [H|[(_ & a & l' & H)|[_ H]]]; discriminate.
    + discriminate.
  - intros (ps & Ep & Hlt). rewrite Ep in H. destruct (Nat.ltb_spec (length w + length ps) 50); [|lia]. destruct H as (tr & v & -> & _). eauto.
Qed.
Print Assumptions C43_accepts_iff_partial.

(** Rejection: when the Rust parser stops after [n] steps, so does the TypeScript parser, with the
    same token for an unexpected one, or it gives up after 50 steps if [n] is not below. *)
Theorem C43_rejects_partial :
  forall hash ast g t L st, file_ast ast -> grammar_from_ast ast = Ok g -> find ap_start ast = Some st -> make_tables hash g = Ok t ->
  quotes_ok g -> codes_ok ast -> kinds_distinct g ->
  exists text P, parse_generate ast (Lalr g L t) = Ok text /\ ReadParse text P /\
  forall V size code has_type regex_holds us tokens w p, 50 <= size -> Forall2 (is_token g) us tokens -> ParseSpec.ended tokens w ->
  literals_carried ast us -> regexes_pass regex_holds ast us -> well_typed code has_type regex_holds ast ->
  parse_impl g t tokens = Panic p ->
  let X := Parse V size P (EmitProduction V size ast code has_type regex_holds) us in
  exists a n c, nth_error tokens 0 = Some a /\ nsteps (parse_step g t tokens) n (parse_init a) c /\ parse_step g t tokens c = inr (Panic p) /\
    if n <? 50 then (p = PInvalidToken /\ exists l, X = PInvalid (N.of_nat (ps_a c)) l) \/ (p = PGotoEmpty /\ X = PNoGoto) else X = PDepth.
Proof.
  intros hash ast g t L st Hf Hg Hst Ht Hq Hc Hk. destruct (C47_tables_partial hash ast g t L Hf Hg Ht Hq Hc Hk) as (text & P & E & HR & _ & TG).
  exists text, P. split; auto. split; auto. intros V size code has_type regex_holds us tokens w p Hs Hus Hend H1 H2 H3 Ep X.
  destruct (file_plain _ _ Hf Hg) as [[He Heof] Hfr]. destruct (grammar_from_ast_ok _ _ Hg) as (st' & Hst' & W & Est & _).
  assert (st' = st) by congruence. subst st'. pose proof (tables_auto g (ap_name st) W Est hash t Ht) as A.
  destruct (parse_ends g (ap_name st) W t A He tokens w Hend Heof) as (a & Ea & [[E' _]|(n & c & r & Hn & Er & E')]); [congruence|].
  rewrite Ep in E'. rewrite <- E' in Er. exists a, n, c. split; auto. split; auto. split; auto.
  destruct HR as (b & _ & _ & _ & _ & N1 & _ & N2 & N3 & _ & N4 & N5 & _ & N6).
  destruct (sim_reject ast g (ap_name st) t P Hg W Est A Heof Hfr TG N1 N2 N3 N4 N5 N6 V size code has_type regex_holds Hs us tokens w Hus Hend a n c p Ea Hn Er) as [[Hn' _]|H]; auto.
  exfalso. apply Hn'. repeat split; auto.
Qed.
Print Assumptions C43_rejects_partial.

(** Without conditions on code, types and values: what the TypeScript parser accepts, the Rust
    parser accepts, and the result has the value of its parse tree. *)
Theorem C43_sound :
  forall hash ast g t L st, file_ast ast -> grammar_from_ast ast = Ok g -> find ap_start ast = Some st -> make_tables hash g = Ok t ->
  quotes_ok g -> codes_ok ast -> kinds_distinct g ->
  exists text P, parse_generate ast (Lalr g L t) = Ok text /\ ReadParse text P /\
  forall V size code has_type regex_holds us tokens w l, 50 <= size -> Forall2 (is_token g) us tokens -> ParseSpec.ended tokens w ->
  Parse V size P (EmitProduction V size ast code has_type regex_holds) us = PStack l ->
  exists tr v, l = [SymNon (ap_name st) v] /\ parse_tree g (ap_name st) w tr /\ parse_impl g t tokens = Ok (postorder tr) /\
    Denotes V g code tr (firstn (length w) us) (SymNon (ap_name st) v).
Proof.
  intros hash ast g t L st Hf Hg Hst Ht Hq Hc Hk. destruct (C47_tables_partial hash ast g t L Hf Hg Ht Hq Hc Hk) as (text & P & E & HR & _ & TG).
  exists text, P. split; auto. split; auto. intros V size code has_type regex_holds us tokens w l Hs Hus Hend HX.
  destruct (tables_sim hash ast g t P st Hf Hg Hst Ht (ex_intro _ text HR) TG V size code has_type regex_holds us tokens w Hs Hus Hend) as [(_ & q & a & l' & H)|H];
    rewrite HX in H; [discriminate|]. unfold agrees in H. destruct (parse_impl g t tokens) as [ps|p|].
  - destruct (_ <? _); [|discriminate]. destruct H as (tr & v & El & HP & -> & HD). injection El as ->. eauto 6.
  - exfalso. destruct H as [H|[(_ & a & l' & H)|[_ H]]]; discriminate.
  - discriminate.
Qed.
Print Assumptions C43_sound.

(** The parsers do not agree on long inputs: the TypeScript parser stops after 50 steps. *)
Definition many : list aprod := [one "S" [[IStr (tx "a"); INon (tx "S"); IStr (tx "b")]; [IStr (tx "b")]] true].
Local Ltac build w g t Eg Et :=
  destruct (grammar_from_ast w) as [g| |] eqn:Eg; [|vm_compute in Eg; discriminate Eg..];
  destruct (make_tables ehash g) as [t| |] eqn:Et; [|vm_compute in Eg; injection Eg as <-; vm_compute in Et; discriminate Et..].
Local Ltac is_file := apply file_ast_b_ok; vm_compute; reflexivity.
Local Ltac has_quotes Eg := apply quotes_b_ok; vm_compute in Eg; injection Eg as <-; vm_compute; reflexivity.
Local Ltac has_codes := apply codes_b_ok; vm_compute; reflexivity.
Local Ltac has_kinds Eg := apply kinds_b_ok; vm_compute in Eg; injection Eg as <-; vm_compute; reflexivity.

Theorem C43_depth_refuted :
  forall L, exists ast g t text P us tokens w ps, file_ast ast /\ grammar_from_ast ast = Ok g /\ make_tables ehash g = Ok t /\
  parse_generate ast (Lalr g L t) = Ok text /\ ReadParse text P /\ Forall2 (is_token g) us tokens /\ ParseSpec.ended tokens w /\
  parse_impl g t tokens = Ok ps /\
  forall size, 50 <= size -> Parse unit size P (EmitProduction unit size ast (fun _ _ => tt) (fun _ _ => true) (fun _ => true)) us = PDepth.
Proof.
  intros L. build many g t Eg Et. assert (Hf : file_ast many) by is_file. assert (Hq : quotes_ok g) by has_quotes Eg. assert (Hc : codes_ok many) by has_codes.
  assert (Hk : kinds_distinct g) by has_kinds Eg.
  destruct (C43_parsers_agree_partial ehash many g t L _ Hf Eg eq_refl Et Hq Hc Hk) as (text & P & E & HR & H).
  set (w := repeat 1 16 ++ repeat 2 17). set (ta := TTok (tx "a") (Some (TLit (tx "a")))). set (tb := TTok (tx "b") (Some (TLit (tx "b")))).
  set (us := (repeat ta 16 ++ repeat tb 17) ++ [EOF]).
  assert (Hus : Forall2 (is_token g) us (w ++ [0])).
  { clear - Eg. assert (H1 : is_token g ta 1 /\ is_token g tb 2 /\ is_token g EOF 0).
    { vm_compute in Eg. injection Eg as <-. repeat split; do 3 eexists; (split; [reflexivity|split; reflexivity]). }
    destruct H1 as (H1 & H2 & H3). assert (Hr : forall u k n, is_token g u k -> Forall2 (is_token g) (repeat u n) (repeat k n)).
    { intros u k n Hu. induction n; cbn [repeat]; constructor; auto. }
    apply Forall2_app; [|constructor; auto]. apply Forall2_app; apply Hr; auto. }
  assert (Hend : ParseSpec.ended (w ++ [0]) w) by (split; auto; unfold w; intros Hi; apply in_app_or in Hi as [Hi|Hi]; apply repeat_spec in Hi; discriminate).
  destruct (parse_impl g t (w ++ [0])) as [ps| |] eqn:Ep;
    [|clear - Eg Et Ep; vm_compute in Eg; injection Eg as <-; vm_compute in Et; injection Et as <-; vm_compute in Ep; discriminate Ep..].
  exists many, g, t, text, P, us, (w ++ [0]), w, ps. do 8 (split; auto). intros size Hs.
  specialize (H unit size (fun _ _ => tt) (fun _ _ => true) (fun _ => true) us (w ++ [0]) w Hs Hus Hend).
  rewrite Ep in H. cbn [agrees] in H.
  assert (Hps : length w + length ps = 50).
  { clear - Eg Et Ep. vm_compute in Eg; injection Eg as <-; vm_compute in Et; injection Et as <-; vm_compute in Ep. injection Ep as <-. reflexivity. }
  rewrite Hps in H. apply H.
  - intros l n v (p & b & m & [<-|[]] & Hb & Hl). exfalso. repeat (destruct Hb as [<-|Hb]; [repeat (destruct Hl as [Hl|Hl]; [discriminate|]); destruct Hl|]). destruct Hb.
  - intros l n v (p & b & m & [<-|[]] & Hb & Hl). exfalso. repeat (destruct Hb as [<-|Hb]; [repeat (destruct Hl as [Hl|Hl]; [discriminate|]); destruct Hl|]). destruct Hb.
  - intros k name b popped _ _. reflexivity.
Qed.
Print Assumptions C43_depth_refuted.

(** A grammar with nested rules meets the hypotheses; "a b b" gets a value that counts the
    reductions, "a b" is rejected. *)
Definition count (_ : N) (l : list (symbol nat)) : nat :=
  S (fold_right (fun s n => match s with SymNon _ v => v | SymTok _ _ => 0 end + n) 0 l).
Example C43_nonvacuous :
  let ta := TTok (tx "a") (Some (TLit (tx "a"))) in let tb := TTok (tx "b") (Some (TLit (tx "b"))) in
  exists g t, file_ast many /\ grammar_from_ast many = Ok g /\ find ap_start many <> None /\ make_tables ehash g = Ok t /\ quotes_ok g /\ codes_ok many /\ kinds_distinct g /\
  Forall2 (is_token g) [ta; tb; tb; EOF] [1; 2; 2; 0] /\ ParseSpec.ended [1; 2; 2; 0] [1; 2; 2] /\
  well_typed count (fun _ _ => true) (fun _ => true) many /\
  parse_impl g t [1; 2; 2; 0] = Ok [2; 1] /\
  Parse nat 200 (the_tables g t) (EmitProduction nat 200 many count (fun _ _ => true) (fun _ => true)) [ta; tb; tb; EOF] = PStack [SymNon (tx "S") 2] /\
  parse_impl g t [1; 2; 0] = Panic PInvalidToken /\
  exists a l, Parse nat 200 (the_tables g t) (EmitProduction nat 200 many count (fun _ _ => true) (fun _ => true)) [ta; tb; EOF] = PInvalid a l.
Proof.
  intros ta tb. build many g t Eg Et. exists g, t. split; [is_file|]. split; auto. split; [discriminate|]. split; auto. split; [has_quotes Eg|]. split; [has_codes|]. split; [has_kinds Eg|].
  vm_compute in Eg. injection Eg as <-. vm_compute in Et. injection Et as <-.
  split; [|split; [|split; [|split; [|split; [|split]]]]].
  - repeat constructor; do 3 eexists; (split; [reflexivity|split; reflexivity]).
  - split; [reflexivity|]. intros H. repeat (destruct H as [H|H]; [discriminate|]). destruct H.
  - intros k name b popped _ _. reflexivity.
  - vm_compute. reflexivity.
  - vm_compute. reflexivity.
  - vm_compute. reflexivity.
  - match goal with |- exists a s, ?X = _ => let v := eval vm_compute in X in match v with PInvalid ?a ?s => exists a, s end end. vm_compute. reflexivity.
Qed.

(** ** C50 *)

(** Both kinds of quotes read a text the same way. *)
Lemma scan_bad s l st : scan SBad s = (l, st) -> st = SBad.
Proof. revert l. induction s as [|c s IH]; intros l E; cbn [scan sstep] in E; [congruence|]. destruct (scan SBad s) eqn:E'. injection E as <- <-. eauto. Qed.
Lemma scan_quotes s : forall a a1 a2,
  (scan (TsText.SStr 34 a) s = ([], TsText.SStr 34 a1) -> scan (TsText.SStr 39 a) s = ([], TsText.SStr 39 a2) -> a1 = a2) /\
  (scan (SEsc 34 a) s = ([], TsText.SStr 34 a1) -> scan (SEsc 39 a) s = ([], TsText.SStr 39 a2) -> a1 = a2).
Proof.
  induction s as [|c s IH]; intros a a1 a2; split; intros H1 H2.
  - cbn [scan] in *. congruence.
  - discriminate.
  - cbn [scan sstep] in *.
    destruct (N.eqb_spec c 34). { destruct (scan SNone s). discriminate. }
    destruct (N.eqb_spec c 39). { destruct (scan SNone s). discriminate. }
    destruct (N.eqb_spec c 92).
    + destruct (scan (SEsc 34 a) s) as [l1 s1] eqn:E1, (scan (SEsc 39 a) s) as [l2 s2] eqn:E2. cbn [app] in *.
      injection H1 as -> ->. injection H2 as -> ->. exact (proj2 (IH _ _ _) E1 E2).
    + cbn [N.eqb negb Pos.eqb] in *. rewrite !andb_true_r in *. destruct ((c =? 10)%N || (c =? 13)%N).
      * destruct (scan SBad s) as [l1 s1] eqn:E1. apply scan_bad in E1. congruence.
      * destruct (scan (TsText.SStr 34 (a ++ [c])) s) as [l1 s1] eqn:E1, (scan (TsText.SStr 39 (a ++ [c])) s) as [l2 s2] eqn:E2. cbn [app] in *.
        injection H1 as -> ->. injection H2 as -> ->. exact (proj1 (IH _ _ _) E1 E2).
  - cbn [scan sstep] in *. destruct (existsb _ _).
    + destruct (scan SBad s) as [l1 s1] eqn:E1. apply scan_bad in E1. congruence.
    + set (a' := a ++ _) in *. destruct (scan (TsText.SStr 34 a') s) as [l1 s1] eqn:E1, (scan (TsText.SStr 39 a') s) as [l2 s2] eqn:E2. cbn [app] in *.
      injection H1 as -> ->. injection H2 as -> ->. exact (proj1 (IH _ _ _) E1 E2).
Qed.
Lemma unq_same s a b : unq 34 s = Some a -> unq 39 s = Some b -> a = b.
Proof. rewrite !unq_scan. apply scan_quotes. Qed.

(** Only names matter for the numbers of tokens. *)
Lemma convert_names m a b ra : mapM (token_with_idx m) a = Ok ra -> map tk_name a = map tk_name b ->
  exists rb, mapM (token_with_idx m) b = Ok rb /\ map snd rb = map snd ra.
Proof.
  revert b ra. induction a as [|x a IH]; intros [|y b] ra E En; try discriminate.
  - injection E as <-. exists []. auto.
  - cbn [mapM] in *. cbn [map] in En. injection En as Ex En. unfold token_with_idx at 1 in E. unfold token_with_idx at 1. rewrite <- Ex.
    destruct (map_get (tk_name x) m) as [d|]; [|discriminate]. destruct (td_idx d) as [i|]; [|discriminate]. cbn [bind] in *.
    destruct (mapM (token_with_idx m) a) as [r| |] eqn:Ea; try discriminate. cbn [bind] in E. injection E as <-.
    destruct (IH b r eq_refl En) as (rb & -> & Er). cbn [bind]. eexists. split; [reflexivity|]. cbn [map snd]. f_equal. exact Er.
Qed.

(** The tokens of the lexers as tokens of the grammar. *)
Lemma lexed_tokens parse ast g l : grammar_from_ast ast = Ok g -> quotes_ok g -> kinds_distinct g -> from_grammar parse g = Ok (l_lexer l) -> l_grammar l = g ->
  (forall s, named ast (IStr s) -> unq 39 s = Some s) ->
  forall tokens ts us, grammar_tokens parse g = Ok tokens ->
  (forall p i u, In (p, i, u) ts -> exists td h, nth_error tokens i = Some (td, h) /\ Lang h u) -> Forall2 same_token (map (plain_token tokens) ts) us ->
  exists w, (forall input out, lex (l_lexer l) input = Ok out -> map tk_name out = map tk_name (map (plain_token tokens) ts) ->
      lalr_parse l input = parse_impl g (l_tables l) (w ++ [0])) /\ ParseSpec.ended (w ++ [0]) w /\ length w = length ts /\
    Forall2 (is_token g) (us ++ [EOF]) (w ++ [0]) /\ literals_carried ast (us ++ [EOF]) /\
    forall n v, In (TTok n v) (us ++ [EOF]) -> TTok n v = EOF \/ exists t, v = Some (TLit t).
Proof.
  intros Hg Hq Hk HL Egl Hlit tokens ts us Et Hin Hsame.
  destruct (token_table _ _ Hg) as (Htab0 & _ & Huniq & _).
  set (out := map (plain_token tokens) ts) in *. assert (Hout : out = map (plain_token tokens) ts) by reflexivity. clearbody out.
  (* every token has a symbol, its name and a value *)
  assert (Hsyms : forall t, In t out -> exists k x u, get_token g k = Some x /\ (x = Grammar.SStr (tk_name t) \/ x = SReg (tk_name t)) /\
            tk_val t = Some u /\ sym_lang parse x u).
  { intros t Ht. rewrite Hout in Ht. apply in_map_iff in Ht as ([[p i] u] & <- & Hx). destruct (Hin p i u Hx) as (td & h & Hn & HLang).
    unfold plain_token. rewrite Hn. pose proof (nth_error_In _ _ Hn) as Hi. apply (grammar_tokens_spec _ _ _ Et) in Hi as (k & x & n & Hkx & Hx' & -> & Hh).
    cbn [td_name td_with_val tk_name tk_val]. exists k, x, u. split; auto. split; [destruct x; try discriminate; injection Hx' as ->; auto|]. split; auto.
    apply (sym_hir_lang parse x h Hh), HLang. }
  destruct (C16_convert_characterised parse ast g _ Hg HL out) as [Hconv _].
  destruct Hconv as (conv & Ec & Efst & Hc).
  { intros t Ht. destruct (Hsyms t Ht) as (k & x & u & Hkx & [-> | ->] & _); apply nth_error_In in Hkx; auto. }
  exists (map snd conv).
  assert (Hpair : forall t k, In (t, k) conv -> exists x u n, get_token g k = Some x /\ (x = Grammar.SStr (tk_name t) \/ x = SReg (tk_name t)) /\
     tk_val t = Some u /\ sym_lang parse x u /\ unq 34 (tk_name t) = Some n /\ token_kind x n /\ k <> 0).
  { intros t k Hp. assert (Ht : In t out) by (rewrite <- Efst; apply in_map_iff; exists (t, k); auto).
    destruct (Hsyms t Ht) as (k' & x & u & Hkx & Hx & Hu & HLg).
    assert (Hqs : unq 34 (tk_name t) <> None /\ unq 39 (tk_name t) <> None) by (apply Hq; apply nth_error_In in Hkx; destruct Hx as [-> | ->]; auto).
    destruct Hqs as [Hq1 Hq2]. destruct (unq 34 (tk_name t)) as [n|] eqn:E34; [|congruence]. destruct (unq 39 (tk_name t)) as [n'|] eqn:E39; [|congruence].
    pose proof (unq_same _ _ _ E34 E39) as <-.
    assert (Hkind : token_kind x n) by (destruct Hx as [-> | ->]; exact E39).
    assert (k = k') as ->.
    { destruct (Hc t k Hp) as [Hk'|[Hk' _]]; eapply (Hk k k' _ x n); eauto. }
    exists x, u, n. repeat (split; auto). intros ->. rewrite Htab0 in Hkx. injection Hkx as <-. destruct Hx; discriminate. }
  assert (Hw0 : ~ In 0 (map snd conv)).
  { intros Hi. apply in_map_iff in Hi as ([t k] & E & Hp). cbn in E. subst k. destruct (Hpair t 0 Hp) as (x & u & n & _ & _ & _ & _ & _ & _ & H). congruence. }
  split.
  { intros input out' El En. unfold lalr_parse. rewrite El. cbn [bind]. unfold convert_tokens in *.
    destruct (mapM (token_with_idx (def_map (l_lexer l))) out) as [r| |] eqn:Er; try discriminate. cbn [bind] in Ec. apply ok_inj, app_inj_tail in Ec as [-> _].
    destruct (convert_names _ _ _ _ Er (eq_sym En)) as (rb & -> & Eb). cbn [bind]. rewrite Egl, map_app, Eb. reflexivity. }
  split; [split; auto|]. split; [rewrite map_length; transitivity (length out); [rewrite <- Efst, map_length; reflexivity|rewrite Hout; apply map_length]|].
  assert (Heof : is_token g EOF 0) by (exists SEof, (tx "EOF"), None; repeat split; auto).
  assert (Hall : Forall2 (fun u tk => exists t k, tk = (t, k) /\ In (t, k) conv /\ same_token t u) us conv).
  { rewrite <- Efst in Hsame. clear - Hsame. revert us Hsame.
    assert (G : forall c us, (forall x, In x c -> In x conv) -> Forall2 same_token (map fst c) us ->
      Forall2 (fun u tk => exists t k, tk = (t, k) /\ In (t, k) conv /\ same_token t u) us c).
    { induction c as [|[t k] c IH]; intros us Hi H; inversion H; subst; constructor; [|apply IH; auto; intros; apply Hi; right; auto].
      exists t, k. split; auto. split; auto. apply Hi. left. auto. }
    intros us. apply G. auto. }
  split; [|split].
  - apply Forall2_app; [|constructor; auto]. clear - Hall Hpair. induction Hall as [|u tk us c (t & k & -> & Hp & (kind & Ek & ->)) _ IH]; cbn [map]; constructor; auto.
    cbn [snd]. destruct (Hpair t k Hp) as (x & uu & n & H1 & _ & _ & _ & H4 & H5 & _). rewrite Ek in H4. injection H4 as <-. exists x, kind, (option_map TLit (tk_val t)). auto.
  - intros s n v Hn Hs Hi. pose proof Hn as Hn'. apply Hlit in Hn'. rewrite Hs in Hn'. injection Hn' as ->. apply in_app_or in Hi.
    assert (Hsx : exists j, get_token g j = Some (Grammar.SStr s)).
    { destruct Hn as (p & b & m & Hp & Hb & Hx). destruct (grammar_from_ast_ok _ _ Hg) as (st & _ & W & _ & Ep).
      apply In_nth_error. apply (token_of_body g _ W (Production (ap_name p) (map lower (ab_syms b)) (Some (ab_fn b)) (Some (ap_ts p)))).
      - rewrite Ep. right. apply in_flat_map. exists p. split; auto. apply in_map_iff. exists b. auto.
      - cbn [p_syms]. apply in_map_iff. exists (INamed (Some m) (IStr s)). auto. }
    destruct Hsx as [j Hj]. destruct Hi as [Hi|[Hi|[]]].
    + destruct (In_nth_error _ _ Hi) as [i Hni].
      destruct (Forall2_nth' _ _ _ Hall i _ Hni) as (tk & _ & (t & k & -> & Hp & (kind & Ek & Eu))).
      injection Eu as <- ->. destruct (Hpair t k Hp) as (x & u & n & H1 & H2 & H3 & H4 & H5 & H6 & _). rewrite Ek in H5. injection H5 as <-.
      assert (k = j) by (eapply (Hk k j x (Grammar.SStr s)); eauto). subst k. rewrite Hj in H1. injection H1 as <-. cbn [sym_lang] in H4. subst u.
      rewrite H3. reflexivity.
    + exfalso. injection Hi as E <-. assert (0 = j) by (apply (Hk 0 j SEof (Grammar.SStr s) s); auto; cbn; auto). subst j. congruence.
  - intros n v Hi. apply in_app_or in Hi as [Hi|[Hi|[]]]; [right|left; auto].
    destruct (In_nth_error _ _ Hi) as [i Hni]. destruct (Forall2_nth' _ _ _ Hall i _ Hni) as (tk & _ & (t & k & -> & Hp & (kind & Ek & Eu))).
    injection Eu as <- ->. destruct (Hpair t k Hp) as (x & u & n0 & _ & _ & H3 & _). rewrite H3. cbn. eauto.
Qed.

(** [Parse<Lex<input>>]; an error of the lexer is no list of tokens. *)
Definition ts_pipeline {V} size chars T P emit (input : list N) : option (parse_out V) :=
  match ts_lex size chars T input with LexToks us => Some (Parse V size P emit us) | _ => None end.

Lemma mapM_names tokens input ts out : mapM (LexProofs.token_of tokens input) ts = Ok out -> map tk_name out = map tk_name (map (plain_token tokens) ts).
Proof.
  revert out. induction ts as [|[[p i] u] ts IH]; intros out E; [injection E as <-; reflexivity|]. cbn [mapM] in E.
  destruct (LexProofs.token_of tokens input (p, i, u)) as [t| |] eqn:Et; try discriminate. cbn [bind] in E.
  destruct (mapM (LexProofs.token_of tokens input) ts) as [r| |]; try discriminate. apply ok_inj in E. subst out. cbn [map]. rewrite (IH r eq_refl). f_equal.
  unfold LexProofs.token_of, plain_token in *. destruct (nth_error tokens i) as [[td h]|]; [|discriminate].
  destruct (td_with_val td); [|apply ok_inj in Et; subst; reflexivity].
  destruct (byte_slice input p (p + length u)); try discriminate. apply ok_inj in Et. subst. reflexivity.
Qed.

Lemma grammar_readable parse g tokens : grammar_tokens parse g = Ok tokens -> quotes_ok g -> PropsLexGen.readable tokens.
Proof.
  intros Et Hq td h Hi. apply (grammar_tokens_spec _ _ _ Et) in Hi as (k & x & n & Hkx & Hx & -> & _). cbn [td_name].
  apply nth_error_In in Hkx. destruct x; try discriminate; injection Hx as ->; apply Hq; auto.
Qed.

(** The types, given what the loop over characters finds. *)
Lemma pipeline_core parse hash ast g l st tokens : file_ast ast -> grammar_from_ast ast = Ok g -> find ap_start ast = Some st -> lalr_new parse hash g = Ok l ->
  quotes_ok g -> codes_ok ast -> kinds_distinct g -> (forall s, named ast (IStr s) -> unq 39 s = Some s) -> grammar_tokens parse g = Ok tokens ->
  exists ltext T ptext P, lex_generate (l_lexer l) = Ok ltext /\ ReadLex ltext T /\ parse_generate ast l = Ok ptext /\ ReadParse ptext P /\
  forall V size code has_type regex_holds chars input, fits size (l_lexer l) -> own_codes chars ->
  (forall c, In c input -> map_get c chars <> None /\ (c <= N.of_nat size)%N) -> length input <= size ->
  well_typed code has_type regex_holds ast -> (forall r v, named ast (IReg r) -> regex_holds (Some (TLit v)) = true) ->
  forall ts i, char_run (l_lexer l) input (map (plain_token tokens) ts) i ->
  (forall p i u, In (p, i, u) ts -> exists td h, nth_error tokens i = Some (td, h) /\ Lang h u) ->
  let X := ts_pipeline size chars T P (EmitProduction V size ast code has_type regex_holds) input in
  (i < length input /\ X = None) \/
  (i = length input /\ exists us w Y, Forall2 same_token (map (plain_token tokens) ts) us /\ length w = length ts /\
     Forall2 (is_token g) (us ++ [EOF]) (w ++ [0]) /\ ParseSpec.ended (w ++ [0]) w /\ X = Some Y /\
     agrees g code (ap_name st) (us ++ [EOF]) w (parse_impl g (l_tables l) (w ++ [0])) Y /\
     forall out, lex (l_lexer l) input = Ok out -> map tk_name out = map tk_name (map (plain_token tokens) ts) ->
       lalr_parse l input = parse_impl g (l_tables l) (w ++ [0])).
Proof.
  intros Hf Hg Hst Hl Hq Hc Hk Hlit Et. destruct (new_parts _ _ _ _ Hl) as (Egl & HL & Ht).
  pose proof HL as EL. unfold from_grammar in EL. rewrite Et in EL. cbn [bind] in EL.
  pose proof (grammar_readable _ _ _ Et Hq) as Hr.
  destruct (C47_tables_partial hash ast g (l_tables l) (l_lexer l) Hf Hg Ht Hq Hc Hk) as (ptext & P & Ep & HRP & _ & TG).
  destruct (C41_tables_partial tokens _ EL Hr) as (ltext & T & E1 & E2 & Hdet & _). exists ltext, T, ptext, P.
  split; auto. split; auto. split; [rewrite <- Ep; rewrite <- Egl; destruct l; reflexivity|]. split; auto.
  intros V size code has_type regex_holds chars input Hfit Hown Hin Hlen Hwt Hreg ts i Hrun Hts X.
  destruct (ts_lex_chars tokens _ size chars input EL Hr Hfit Hown Hin Hlen) as (text' & T' & E1' & E2' & Hcase).
  rewrite E1 in E1'. apply ok_inj in E1'. subst text'. pose proof (Hdet _ E2') as ->.
  destruct (Hcase _ _ Hrun) as [(Ei & us & Ets & Hsame)|(Hi & c & _ & Ets)]; [right|left].
  - split; auto. destruct (lexed_tokens parse ast g l Hg Hq Hk HL Egl Hlit tokens ts us Et Hts Hsame) as (w & Epar & Hwend & Hwl & Hus & Hcar & Hval).
    exists us, w. unfold X, ts_pipeline. rewrite Ets. eexists. split; auto. split; auto. split; auto. split; auto. split; [reflexivity|].
    split; [|intros; eapply Epar; eauto]. destruct Hfit as (Hs & _).
    destruct (tables_sim hash ast g (l_tables l) P st Hf Hg Hst Ht (ex_intro _ ptext HRP) TG V size code has_type regex_holds _ _ w ltac:(lia) Hus Hwend) as [[Hn _]|H]; auto.
    exfalso. apply Hn. split; auto. split; auto. intros r n v Hr0 Hn0 Hi. destruct (Hval n v Hi) as [E|[t ->]]; [|eauto].
    exfalso. injection E as -> ->. destruct (token_table _ _ Hg) as (H0 & _).
    assert (Hsx : exists j, get_token g j = Some (SReg r)).
    { destruct Hr0 as (p & b & m & Hp & Hb & Hx). destruct (grammar_from_ast_ok _ _ Hg) as (st' & _ & W & _ & Epr).
      apply In_nth_error. apply (token_of_body g _ W (Production (ap_name p) (map lower (ab_syms b)) (Some (ab_fn b)) (Some (ap_ts p)))).
      - rewrite Epr. right. apply in_flat_map. exists p. split; auto. apply in_map_iff. exists b. auto.
      - cbn [p_syms]. apply in_map_iff. exists (INamed (Some m) (IReg r)). auto. }
    destruct Hsx as [j Hj]. assert (0 = j) by (apply (Hk 0 j SEof (SReg r) (tx "EOF")); auto; reflexivity). subst j. congruence.
  - split; auto. unfold X, ts_pipeline. rewrite Ets. reflexivity.
Qed.

(** For a grammar file as in C47 whose named literals have no escapes: from the generated files,
    on every ASCII input of characters of the table and within the arithmetic tables, the
    TypeScript lexer and parser give the result of [Lalr::parse], up to the number of steps, if the
    Rust lexer reads all of the input; otherwise they give the lexer's error. *)
Theorem C50_pipelines_agree_partial :
  forall parse hash ast g l st, file_ast ast -> grammar_from_ast ast = Ok g -> find ap_start ast = Some st -> lalr_new parse hash g = Ok l ->
  quotes_ok g -> codes_ok ast -> kinds_distinct g -> (forall s, named ast (IStr s) -> unq 39 s = Some s) ->
  exists ltext T ptext P, lex_generate (l_lexer l) = Ok ltext /\ ReadLex ltext T /\ parse_generate ast l = Ok ptext /\ ReadParse ptext P /\
  forall V size code has_type regex_holds chars input, fits size (l_lexer l) -> own_codes chars ->
  (forall c, In c input -> map_get c chars <> None) -> ascii input -> length input <= size ->
  well_typed code has_type regex_holds ast -> (forall r v, named ast (IReg r) -> regex_holds (Some (TLit v)) = true) ->
  let X := ts_pipeline size chars T P (EmitProduction V size ast code has_type regex_holds) input in
  exists i, ends_at (l_lexer l) input i /\
  ((i < length input /\ X = None) \/
   (i = length input /\ exists out us w Y, lex (l_lexer l) input = Ok out /\ Forall2 same_token out us /\ length w = length out /\ X = Some Y /\
      agrees g code (ap_name st) (us ++ [EOF]) w (lalr_parse l input) Y)).
Proof.
  intros parse hash ast g l st Hf Hg Hst Hl Hq Hc Hk Hlit. destruct (new_parts _ _ _ _ Hl) as (Egl & HL & Ht). destruct (from_grammar_inv _ _ _ HL) as (tokens & Et & EL).
  destruct (pipeline_core parse hash ast g l st tokens Hf Hg Hst Hl Hq Hc Hk Hlit Et) as (ltext & T & ptext & P & E1 & E2 & E3 & E4 & H).
  exists ltext, T, ptext, P. split; auto. split; auto. split; auto. split; auto.
  intros V size code has_type regex_holds chars input Hfit Hown Hin Ha Hlen Hwt Hreg X.
  destruct (lex_all tokens _ input EL) as (lv & ac & ts & r & i & HT & _ & El & Hrun & He & _ & _ & Hs & _). specialize (El Ha).
  exists i. split; [eauto|].
  destruct (H V size code has_type regex_holds chars input Hfit Hown) with (ts := ts) (i := i) as [[Hi HX]|(Hi & us & w & Y & Hsame & Hwl & _ & _ & HX & HY & Hout)]; auto.
  - intros c Hcin. split; auto. unfold ascii in Ha. rewrite Forall_forall in Ha. apply Ha in Hcin. destruct Hfit. lia.
  - intros p j u Hx. destruct (tokenize_longest _ _ _ _ _ _ HT p j u Hx) as (a & b & _ & _ & (_ & Hau & _)).
    apply Hs in Hau as (h & Hj & HLg). rewrite nth_error_map in Hj. destruct (nth_error tokens j) as [[td h']|]; [|discriminate]. injection Hj as <-. eauto.
  - right. split; auto. exists (map (plain_token tokens) ts), us, w, Y. split; auto. split; auto. split; [rewrite map_length; auto|]. split; auto.
    rewrite (Hout _ El eq_refl). exact HY.
Qed.
Print Assumptions C50_pipelines_agree_partial.

(** The same for any text within the tables: the Rust library parses the same tokens, unless it
    panics where a token's bytes do not lie between characters (C14). *)
Theorem C50_any_text_partial :
  forall parse hash ast g l st, file_ast ast -> grammar_from_ast ast = Ok g -> find ap_start ast = Some st -> lalr_new parse hash g = Ok l ->
  quotes_ok g -> codes_ok ast -> kinds_distinct g -> (forall s, named ast (IStr s) -> unq 39 s = Some s) ->
  exists tokens ltext T ptext P, grammar_tokens parse g = Ok tokens /\
  lex_generate (l_lexer l) = Ok ltext /\ ReadLex ltext T /\ parse_generate ast l = Ok ptext /\ ReadParse ptext P /\
  forall V size code has_type regex_holds chars input, fits size (l_lexer l) -> own_codes chars ->
  (forall c, In c input -> map_get c chars <> None /\ (c <= N.of_nat size)%N) -> length input <= size ->
  well_typed code has_type regex_holds ast -> (forall r v, named ast (IReg r) -> regex_holds (Some (TLit v)) = true) ->
  let X := ts_pipeline size chars T P (EmitProduction V size ast code has_type regex_holds) input in
  exists i ts, (forall p j u, In (p, j, u) ts -> exists a b, input = a ++ u ++ b /\ p = length a /\ u <> []) /\
  ((sliced input (map drop_idx ts) /\ ends_at (l_lexer l) input i /\ exists out, lex (l_lexer l) input = Ok out /\ Forall2 (sliced_as tokens input) ts out) \/
   (~ sliced input (map drop_idx ts) /\ lex (l_lexer l) input = Panic PSlice /\ lalr_parse l input = Panic PSlice)) /\
  ((i < length input /\ X = None) \/
   (i = length input /\ exists us w Y, Forall2 (spelt tokens) ts us /\ length w = length ts /\ Forall2 (is_token g) (us ++ [EOF]) (w ++ [0]) /\ X = Some Y /\
      agrees g code (ap_name st) (us ++ [EOF]) w (parse_impl g (l_tables l) (w ++ [0])) Y /\
      (sliced input (map drop_idx ts) -> lalr_parse l input = parse_impl g (l_tables l) (w ++ [0])))).
Proof.
  intros parse hash ast g l st Hf Hg Hst Hl Hq Hc Hk Hlit. destruct (new_parts _ _ _ _ Hl) as (Egl & HL & Ht). destruct (from_grammar_inv _ _ _ HL) as (tokens & Et & EL).
  destruct (pipeline_core parse hash ast g l st tokens Hf Hg Hst Hl Hq Hc Hk Hlit Et) as (ltext & T & ptext & P & E1 & E2 & E3 & E4 & H).
  exists tokens, ltext, T, ptext, P. split; auto. split; auto. split; auto. split; auto. split; auto.
  intros V size code has_type regex_holds chars input Hfit Hown Hin Hlen Hwt Hreg X.
  destruct (lex_all tokens _ input EL) as (lv & ac & ts & r & i & HT & El & _ & Hrun & He & _ & _ & Hs & _).
  assert (Hts : forall p j u, In (p, j, u) ts -> exists td h, nth_error tokens j = Some (td, h) /\ Lang h u).
  { intros p j u Hx. destruct (tokenize_longest _ _ _ _ _ _ HT p j u Hx) as (a & b & _ & _ & (_ & Hau & _)).
    apply Hs in Hau as (h & Hj & HLg). rewrite nth_error_map in Hj. destruct (nth_error tokens j) as [[td h']|]; [|discriminate]. injection Hj as <-. eauto. }
  assert (Hts' : forall p j u, In (p, j, u) ts -> exists td h, nth_error tokens j = Some (td, h)) by (intros p j u Hx; destruct (Hts p j u Hx) as (td & h & Hn & _); eauto).
  assert (Hv : forall td h, In (td, h) tokens -> td_with_val td = true).
  { intros td h Hi. apply (grammar_tokens_spec _ _ _ Et) in Hi as (k & x & n & _ & _ & -> & _). reflexivity. }
  pose proof (slice_all tokens input ts Hv Hts') as Hsl. rewrite <- El in Hsl.
  exists i, ts. split; [|split].
  - intros p j u Hx. pose proof (tokenize_layout _ _ _ _ _ _ HT) as Hlay.
    destruct (layout_pos _ _ _ _ Hlay p u) as (a & b & E & Ep & Hu); [apply (in_map drop_idx) in Hx; exact Hx|]. exists a, b. auto.
  - destruct Hsl as [[Hsl (out & Ho)]|[Hsl Ho]]; [left|right].
    + split; auto. split; [eauto|]. exists out. split; auto. rewrite El in Ho.
      destruct (slice_tokens tokens input ts Hts') as [(out' & Ho' & HF)|(Hp & _)]; rewrite Ho in *; [apply ok_inj in Ho'; subst; exact HF|discriminate].
    + split; auto. split; auto. unfold lalr_parse. rewrite Ho. reflexivity.
  - destruct (H V size code has_type regex_holds chars input Hfit Hown) with (ts := ts) (i := i) as [[Hi HX]|(Hi & us & w & Y & Hsame & Hwl & Hus & _ & HX & HY & Hout)]; auto.
    right. split; auto. exists us, w, Y. split; [apply plain_spelt; auto; intros [[p j] u] Hx; cbn; destruct (Hts' p j u Hx) as (td & h & Hn); apply nth_error_lt in Hn; exact Hn|].
    do 4 (split; auto). intros Hs'. destruct Hsl as [[_ (out & Ho)]|[Hsl _]]; [|contradiction]. apply (Hout out Ho). rewrite El in Ho. eapply mapM_names; eauto.
Qed.
Print Assumptions C50_any_text_partial.

Fixpoint ends_b (n : nat) (L : lexer) (input : list N) (s : lstate) (i : nat) : bool :=
  match n with
  | O => false
  | S n => match lex_step L input s with inl s' => ends_b n L input s' i | inr _ => ls_forward s =? i end
  end.
Lemma ends_at_b n L input i : ends_b n L input (LState [] 0 0 0 None) i = true -> ends_at L input i.
Proof.
  unfold ends_at. generalize (LState [] 0 0 0 None). induction n as [|n IH]; intros s H; [discriminate|]. cbn [ends_b] in H.
  destruct (lex_step L input s) as [s'|r] eqn:E.
  - destruct (IH s' H) as (m & u & r & H1 & H2 & H3). exists (S m), u, r. split; auto. econstructor; eauto.
  - apply Nat.eqb_eq in H. exists 0, s, r. split; [constructor|auto].
Qed.

(** Acceptance: exactly when the Rust lexer reads all of the input and the Rust parser accepts
    within 49 steps. *)
Theorem C50_accepts_iff_partial :
  forall parse hash ast g l st, file_ast ast -> grammar_from_ast ast = Ok g -> find ap_start ast = Some st -> lalr_new parse hash g = Ok l ->
  quotes_ok g -> codes_ok ast -> kinds_distinct g -> (forall s, named ast (IStr s) -> unq 39 s = Some s) ->
  exists ltext T ptext P, lex_generate (l_lexer l) = Ok ltext /\ ReadLex ltext T /\ parse_generate ast l = Ok ptext /\ ReadParse ptext P /\
  forall V size code has_type regex_holds chars input, fits size (l_lexer l) -> own_codes chars ->
  (forall c, In c input -> map_get c chars <> None) -> ascii input -> length input <= size ->
  well_typed code has_type regex_holds ast -> (forall r v, named ast (IReg r) -> regex_holds (Some (TLit v)) = true) ->
  (exists s, ts_pipeline size chars T P (EmitProduction V size ast code has_type regex_holds) input = Some (PStack s)) <->
  (ends_at (l_lexer l) input (length input) /\
   exists out ps, lex (l_lexer l) input = Ok out /\ lalr_parse l input = Ok ps /\ length out + length ps < 50).
Proof.
  intros parse hash ast g l st Hf Hg Hst Hl Hq Hc Hk Hlit.
  destruct (C50_pipelines_agree_partial parse hash ast g l st Hf Hg Hst Hl Hq Hc Hk Hlit) as (ltext & T & ptext & P & E1 & E2 & E3 & E4 & H).
  exists ltext, T, ptext, P. split; auto. split; auto. split; auto. split; auto.
  intros V size code has_type regex_holds chars input Hfit Hown Hin Ha Hlen Hwt Hreg.
  destruct (H V size code has_type regex_holds chars input Hfit Hown Hin Ha Hlen Hwt Hreg) as (i & Hend & Hcase).
  destruct Hcase as [[Hi HX]|(Hi & out & us & w & Y & Elex & _ & Hwl & HX & HY)]; rewrite HX.
  - split; [intros [s E]; discriminate|]. intros [He _]. pose proof (ends_at_det _ _ _ _ Hend He). lia.
  - subst i. unfold agrees in HY. split.
    + intros [s E]. injection E as ->. split; auto. exists out. destruct (lalr_parse l input) as [ps|p|].
      * rewrite Hwl in HY. destruct (Nat.ltb_spec (length out + length ps) 50); [eauto|discriminate].
      * exfalso. destruct HY as [HY|[(_ & a & l' & HY)|[_ HY]]]; discriminate.
      * discriminate.
    + intros (_ & out' & ps & Eo & Ep & Hlt). rewrite Elex in Eo. injection Eo as <-. rewrite Ep, Hwl in HY.
      destruct (Nat.ltb_spec (length out + length ps) 50); [|lia]. destruct HY as (tr & v & -> & _). eauto.
Qed.
Print Assumptions C50_accepts_iff_partial.

(** Not for all inputs: the Rust library accepts a sentence followed by a character that begins no
    token, the TypeScript types report that character. *)
Definition single : list aprod := [one "S" [[IStr (tx "a")]] true].
Theorem C50_garbage_refuted :
  exists ast g l ltext T ptext P input ps, file_ast ast /\ grammar_from_ast ast = Ok g /\ lalr_new (fun _ => None) ehash g = Ok l /\
  lex_generate (l_lexer l) = Ok ltext /\ ReadLex ltext T /\ parse_generate ast l = Ok ptext /\ ReadParse ptext P /\ ascii input /\
  lalr_parse l input = Ok ps /\
  ts_pipeline 200 (map (fun c => (c, c)) input) T P (EmitProduction unit 200 ast (fun _ _ => tt) (fun _ _ => true) (fun _ => true)) input = None.
Proof.
  build single g t Eg Et. assert (Hf : file_ast single) by is_file. assert (Hq : quotes_ok g) by has_quotes Eg. assert (Hc : codes_ok single) by has_codes.
  assert (Hk : kinds_distinct g) by has_kinds Eg.
  destruct (lalr_new (fun _ => None) ehash g) as [l| |] eqn:El; [|vm_compute in Eg; injection Eg as <-; vm_compute in El; discriminate El..].
  assert (Hlit : forall s, named single (IStr s) -> unq 39 s = Some s).
  { intros s (p & b & m & [<-|[]] & [<-|[]] & [Hx|[]]). discriminate. }
  destruct (C50_pipelines_agree_partial _ _ single g l _ Hf Eg eq_refl El Hq Hc Hk Hlit) as (ltext & T & ptext & P & E1 & E2 & E3 & E4 & H).
  set (input := tx "a#"). destruct (lalr_parse l input) as [ps| |] eqn:Ep;
    [|clear - Eg El Ep; vm_compute in Eg; injection Eg as <-; vm_compute in El; injection El as <-; vm_compute in Ep; discriminate Ep..].
  exists single, g, l, ltext, T, ptext, P, input, ps. do 7 (split; auto).
  assert (Ha : ascii input) by (repeat constructor; lia). split; auto. split; auto.
  destruct (H unit 200 (fun _ _ => tt) (fun _ _ => true) (fun _ => true) (map (fun c => (c, c)) input) input) as (i & Hend & Hcase); auto.
  - clear - Eg El. vm_compute in Eg. injection Eg as <-. vm_compute in El. injection El as <-.
    split; [apply Nat.leb_le; reflexivity|]. split; [apply Nat.leb_le; vm_compute; reflexivity|]. intros e He. cbn [l_lexer lx_dfa d_edges] in He.
    repeat (destruct He as [<-|He]; [cbn [fst de_label]; lia|]). destruct He.
  - intros c v Hcv. apply map_get_In, in_map_iff in Hcv as (x & E & _). congruence.
  - intros c [<-|[<-|[]]]; vm_compute; discriminate.
  - apply Nat.leb_le; reflexivity.
  - intros k name b popped _ _. reflexivity.
  - destruct Hcase as [[_ HX]|(Hi & _)]; [exact HX|]. exfalso.
    assert (He : ends_at (l_lexer l) input 1); [|pose proof (ends_at_det _ _ _ _ Hend He) as Hx; rewrite Hi in Hx; discriminate Hx].
    clear - Eg El. vm_compute in Eg. injection Eg as <-. vm_compute in El. injection El as <-.
    apply (ends_at_b 5). vm_compute. reflexivity.
Qed.
Print Assumptions C50_garbage_refuted.

(** The committed grammar meets the hypotheses; with code that counts reductions, "(add 12)" has
    the value 5. *)
Example C50_nonvacuous :
  exists g l c, grammar_from_ast lisp_ast = Ok g /\ lalr_new lisp_regex ehash g = Ok l /\ file_ast lisp_ast /\ quotes_ok g /\ codes_ok lisp_ast /\ kinds_distinct g /\
  (forall s, named lisp_ast (IStr s) -> unq 39 s = Some s) /\ fits 200 (l_lexer l) /\ own_codes abc /\
  well_typed count (fun _ _ => true) (fun _ => true) lisp_ast /\
  lex_ctx_new (l_lexer l) = Ok c /\
  ts_pipeline 200 abc (tables_of c) (the_tables g (l_tables l)) (EmitProduction nat 200 lisp_ast count (fun _ _ => true) (fun _ => true)) (tx "(add 12)") =
    Some (PStack [SymNon (tx "SExpr") 5]) /\
  (exists a s, ts_pipeline 200 abc (tables_of c) (the_tables g (l_tables l)) (EmitProduction nat 200 lisp_ast count (fun _ _ => true) (fun _ => true)) (tx "(add") =
    Some (PInvalid a s)) /\
  ts_pipeline 200 abc (tables_of c) (the_tables g (l_tables l)) (EmitProduction nat 200 lisp_ast count (fun _ _ => true) (fun _ => true)) (tx "(add#") = None.
Proof.
  destruct (grammar_from_ast lisp_ast) as [g| |] eqn:Eg; [|vm_compute in Eg; discriminate Eg..].
  destruct (lalr_new lisp_regex ehash g) as [l| |] eqn:El; [|vm_compute in Eg; injection Eg as <-; vm_compute in El; discriminate El..].
  destruct (lex_ctx_new (l_lexer l)) as [c| |] eqn:EC;
    [|vm_compute in Eg; injection Eg as <-; vm_compute in El; injection El as <-; vm_compute in EC; discriminate EC..].
  exists g, l, c. split; auto. split; auto. split; [is_file|]. split; [has_quotes Eg|]. split; [has_codes|]. split; [has_kinds Eg|].
  split; [|split; [|split; [|split; [|split; [auto|]]]]].
  - intros s (p & b & m & Hp & Hb & Hx).
    repeat (destruct Hp as [<-|Hp];
      [repeat (destruct Hb as [<-|Hb]; [repeat (destruct Hx as [Hx|Hx]; [try discriminate Hx; injection Hx as _ <-; vm_compute; reflexivity|]); destruct Hx|]); destruct Hb|]). destruct Hp.
  - clear - Eg El. vm_compute in Eg. injection Eg as <-. vm_compute in El. injection El as <-.
    split; [apply Nat.leb_le; reflexivity|]. split; [apply Nat.leb_le; vm_compute; reflexivity|]. intros e He. cbn [l_lexer lx_dfa d_edges] in He.
    repeat (destruct He as [<-|He]; [cbn [fst de_label]; lia|]). destruct He.
  - intros ch v. unfold abc. intros H. apply map_get_In, in_map_iff in H as (x & E & _). congruence.
  - intros k name b popped _ _. reflexivity.
  - vm_compute in Eg. injection Eg as <-. vm_compute in El. injection El as <-. vm_compute in EC. injection EC as <-.
    split; [vm_compute; reflexivity|]. split; [|vm_compute; reflexivity].
    match goal with |- exists a s, ?X = _ => let v := eval vm_compute in X in match v with Some (PInvalid ?a ?s) => exists a, s end end. vm_compute. reflexivity.
Qed.
