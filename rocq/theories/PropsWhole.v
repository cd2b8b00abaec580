(** Property C57: from the text of a grammar file to the type of a text. *)
From Coq Require Import Ascii String.
From Verif Require Import Base Text Regex Nfa Dfa Lex LexSpec LexLoop LexProofs Utf8Spec Utf8Proofs Grammar GrammarSpec GrammarProofs First Item Table TableProofs TableFacts LexGrammar LexGrammarProofs
  Parse ParseSpec Auto ParseProofs ParseTerm TreeFacts PropsParse Lalr EndSpec EndProofs PropsGrammar PropsEnd Witness
  LexGen LexGenProofs LexGenLexer TsText TsTextFacts TsScan TsTables TsModule TsModuleFacts ParseGenSpec ParseGen ParseGenProofs ParseGenFile ParseGenEmit ParseGenCheck PropsLexGen PropsParseGen Lisp
  TsUtil TsLex TsLexProofs PropsTsLex TsParse TsParseSpec TsParseProofs PropsTsParse
  GrammarFile GrammarFileSpec GrammarFileProofs PropsGrammarFile.
Local Open Scope list_scope.

(** The token of the type-level lexer for a symbol and its text. *)
Definition carries (x : nat * sym * list N) (y : ts_tok) : Prop :=
  exists n, token_kind (snd (fst x)) n /\ y = TTok n (Some (TLit (snd x))).

Scheme Denotes_mut := Minimality for Denotes Sort Prop
  with DenotesAll_mut := Minimality for DenotesAll Sort Prop.

Lemma denotes_leaves V g code tr us s : Denotes V g code tr us s ->
  Forall2 (fun x u => exists n v, token_kind x n /\ u = TTok n v) (yield tr) us.
Proof.
  intros H. refine (Denotes_mut V g code
    (fun tr us s => Forall2 (fun x u => exists n v, token_kind x n /\ u = TTok n v) (yield tr) us)
    (fun ts us ss => Forall2 (fun x u => exists n v, token_kind x n /\ u = TTok n v) (flat_map yield ts) us) _ _ _ _ tr us s H); clear.
  - intros x n v q Hk. constructor; [eauto|constructor].
  - intros p pr ts us ss _ _ H. exact H.
  - constructor.
  - intros t u s' ts us' ss _ H1 _ H2. cbn [flat_map]. apply Forall2_app; auto.
Qed.

Lemma kinds_no_clash g : quotes_ok g -> kinds_distinct g -> no_clash g.
Proof.
  intros Hq Hk s [H1 H2]. apply In_nth_error in H1 as [i Hi]. apply In_nth_error in H2 as [j Hj].
  destruct (Hq s) as [_ H39]; [left; apply nth_error_In in Hi; auto|].
  destruct (unq 39 s) as [n|] eqn:E; [|congruence].
  assert (i = j) by (apply (Hk i j (Grammar.SStr s) (SReg s) n); auto). subst j. congruence.
Qed.

(** The lexer's tokens with their symbols. *)
Lemma toks_syms_of parse g tokens ts us : grammar_tokens parse g = Ok tokens -> quotes_ok g ->
  (forall p i u, In (p, i, u) ts -> exists td h, nth_error tokens i = Some (td, h) /\ Lang h u) ->
  Forall2 same_token (map (plain_token tokens) ts) us ->
  exists toks, map (fun x => (fst (fst x), snd x)) toks = map drop_idx ts /\
    (forall p x u, In (p, x, u) toks -> In x (lex_syms g) /\ sym_lang parse x u) /\ Forall2 carries toks us /\
    Forall2 (fun x s => nth_error (lex_syms g) (snd (fst x)) = Some s) ts (toks_syms toks).
Proof.
  intros Et Hq. revert us. induction ts as [|[[p i] u] ts IH]; intros us Hin HF; inversion HF as [|? y ? us' Hy HF']; subst.
  - exists []. split; [reflexivity|]. split; [intros; contradiction|]. split; constructor.
  - destruct (IH us') as (toks & E1 & H2 & H3 & H4); [intros; eapply Hin; right; eassumption|exact HF'|].
    destruct (Hin p i u) as (td & h & Hn & Hh); [left; reflexivity|].
    destruct (def_sym _ _ _ Et _ _ _ Hn) as (k & x & Hx & Hk & Hg & Hs).
    exists ((p, x, u) :: toks). cbn [map fst snd]. rewrite E1. split; [reflexivity|]. split.
    + intros p' x' u' [E|Hx']; [|eauto]. injection E as <- <- <-. split; [eauto using nth_error_In|]. apply (sym_hir_lang _ _ _ Hs), Hh.
    + split; [|constructor; auto]. constructor; auto. destruct Hy as (kind & Ek & ->). unfold plain_token in *. rewrite Hn in *. cbn [tk_name tk_val] in *.
      pose proof (nth_error_In _ _ Hn) as Hi. apply (grammar_tokens_spec _ _ _ Et) in Hi as (k' & x' & n & Hk' & Hx' & -> & _).
      cbn [td_idx] in Hk. injection Hk as ->. assert (x' = x) by congruence. subst x'. cbn [td_name td_with_val] in *.
      exists kind. split; [|reflexivity]. cbn [fst snd].
      assert (Hqn : unq 39 n <> None) by (apply Hq; apply nth_error_In in Hg; destruct x; try discriminate; injection Hx' as ->; auto).
      destruct (unq 39 n) as [n'|] eqn:E39; [|congruence]. pose proof (unq_same _ _ _ Ek E39) as <-.
      destruct x; try discriminate; injection Hx' as ->; exact E39.
Qed.
Lemma toks_of parse g tokens ts us : grammar_tokens parse g = Ok tokens -> quotes_ok g ->
  (forall p i u, In (p, i, u) ts -> exists td h, nth_error tokens i = Some (td, h) /\ Lang h u) ->
  Forall2 same_token (map (plain_token tokens) ts) us ->
  exists toks, map (fun x => (fst (fst x), snd x)) toks = map drop_idx ts /\
    (forall p x u, In (p, x, u) toks -> In x (lex_syms g) /\ sym_lang parse x u) /\ Forall2 carries toks us.
Proof. intros Et Hq Hin HF. destruct (toks_syms_of parse g tokens ts us Et Hq Hin HF) as (toks & H1 & H2 & H3 & _). eauto. Qed.

(** For a grammar file as in C50, read from its text: whenever [Parse<Lex<input>>] has a value,
    the input is white space and texts of symbols up to a rest, these symbols are the leaves of a
    parse tree of the grammar, so they are a sentence, and the value is the one of that tree over
    the texts. *)
Theorem C57_value_partial :
  forall parse hash text ast g l st, file_says text ast -> grammar_from_ast ast = Ok g -> find ap_start ast = Some st -> lalr_new parse hash g = Ok l ->
  quotes_ok g -> codes_ok ast -> kinds_distinct g -> (forall s, named ast (IStr s) -> unq 39 s = Some s) ->
  exists ltext T ptext P, lex_generate (l_lexer l) = Ok ltext /\ ReadLex ltext T /\ parse_generate ast l = Ok ptext /\ ReadParse ptext P /\
  forall V size code has_type regex_holds chars input, fits size (l_lexer l) -> own_codes chars ->
  (forall c, In c input -> map_get c chars <> None /\ (c <= N.of_nat size)%N) -> length input <= size ->
  well_typed code has_type regex_holds ast -> (forall r v, named ast (IReg r) -> regex_holds (Some (TLit v)) = true) ->
  forall s, ts_pipeline size chars T P (EmitProduction V size ast code has_type regex_holds) input = Some (PStack s) ->
  exists toks rest us tr v, reading parse g input toks rest /\ Forall2 carries toks us /\
    tree_ok g tr /\ root g tr = Some (SNon (ap_name st)) /\ yield tr = toks_syms toks /\ derives g [SNon (ap_name st)] (toks_syms toks) /\
    Denotes V g code tr us (SymNon (ap_name st) v) /\ s = [SymNon (ap_name st) v].
Proof.
  intros parse hash text ast g l st Hfs Hg Hst Hl Hq Hc Hk Hlit.
  assert (Hf : file_ast ast) by (apply (C52_file_ast text), C51_reading, Hfs).
  destruct (new_parts _ _ _ _ Hl) as (_ & HL & _). destruct (from_grammar_inv _ _ _ HL) as (tokens & Et & EL).
  destruct (pipeline_core parse hash ast g l st tokens Hf Hg Hst Hl Hq Hc Hk Hlit Et) as (ltext & T & ptext & P & E1 & E2 & E3 & E4 & H).
  exists ltext, T, ptext, P. split; auto. split; auto. split; auto. split; auto.
  intros V size code has_type regex_holds chars input Hfit Hown Hin Hlen Hwt Hreg s HX.
  destruct (lex_all tokens _ input EL) as (lv & ac & ts & r & i & HT & _ & _ & Hrun & _ & _ & _ & Hs & _).
  assert (Hts : forall p j u, In (p, j, u) ts -> exists td h, nth_error tokens j = Some (td, h) /\ Lang h u).
  { intros p j u Hx. destruct (tokenize_longest _ _ _ _ _ _ HT p j u Hx) as (a & b & _ & _ & (_ & Hau & _)).
    apply Hs in Hau as (h & Hj & HLg). rewrite nth_error_map in Hj. destruct (nth_error tokens j) as [[td h']|]; [|discriminate]. injection Hj as <-. eauto. }
  destruct (H V size code has_type regex_holds chars input Hfit Hown Hin Hlen Hwt Hreg ts i Hrun Hts) as [[_ Hx]|(_ & us & w & Y & Hsame & Hwl & _ & _ & HY & Hag & _)];
    clear H; rewrite HX in *; [discriminate|].
  injection HY as <-. unfold agrees in Hag.
  destruct (parse_impl g (l_tables l) (w ++ [0])) as [ps|p|].
  2: { destruct Hag as [Hx|[(_ & a & l' & Hx)|[_ Hx]]]; discriminate. }
  2: discriminate.
  destruct (length w + length ps <? 50); [|discriminate]. destruct Hag as (tr & v & Es & (Ht1 & Ht2 & Hsy) & _ & Hden).
  injection Es as ->.
  assert (Hul : length w = length us).
  { rewrite Hwl. rewrite <- (map_length (plain_token tokens) ts). clear -Hsame. induction Hsame; cbn [length]; congruence. }
  rewrite firstn_app, Hul, Nat.sub_diag, firstn_all, app_nil_r in Hden.
  pose proof (tokenize_layout _ _ _ _ _ _ HT) as Hlay.
  destruct (toks_of parse g tokens ts us Et Hq) as (toks & Em & Htoks & Hcar); auto.
  assert (Hy : yield tr = toks_syms toks).
  { pose proof (denotes_leaves _ _ _ _ _ _ Hden) as HD.
    assert (HTk : forall x, In x (yield tr) -> exists k, get_token g k = Some x).
    { intros x Hx. apply (in_map Some) in Hx. unfold symbols in Hsy. rewrite <- Hsy in Hx. apply in_map_iff in Hx as (k & E & _). eauto. }
    clear - HD Hcar Hk HTk Htoks. unfold toks_syms. revert HTk HD. generalize (yield tr) as l. revert Htoks. induction Hcar as [|[[p x] u] y toks us (n & Hn & ->) _ IH]; intros Htoks l HTk HD.
    - inversion HD. reflexivity.
    - inversion HD as [|x' y l' us' (n' & v' & Hn' & E) HD']; subst. cbn [map fst snd]. injection E as <- _. f_equal.
      + destruct (HTk x') as [k Hkx]; [left; auto|]. destruct (Htoks p x u) as [Hx _]; [left; auto|].
        apply filter_In in Hx as [Hx _]. apply In_nth_error in Hx as [k' Hk']. cbn [fst snd] in Hn.
        assert (k = k') by (apply (Hk k k' x' x n); auto). subst k'. unfold get_token in *. congruence.
      + apply IH; auto.
        * intros p' x'' u' Hi. apply (Htoks p' x'' u'). right. auto.
        * intros x'' Hi. apply HTk. right. auto. }
  exists toks, r, us, tr, v. split; [split; [unfold toks_texts; rewrite Em; exact Hlay|exact Htoks]|]. split; auto. split; auto. split; auto. split; auto.
  split; [rewrite <- Hy; apply tree_derives; auto|]. split; auto.
Qed.
Print Assumptions C57_value_partial.

(** When the pieces refine the ranges (C09): [Parse<Lex<input>>] has a value exactly
    when the text left over by maximal munch is not rejected by the lexer, the symbols before it
    have a parse tree along which the tables have all transitions, and there are less than 50
    tokens and reductions.  If no transition is missing at all, every parse tree will do.  The value
    is the one of that tree over the texts found. *)
Theorem C57_accepts_iff_partial :
  forall parse hash text ast g l st hs, file_says text ast -> grammar_from_ast ast = Ok g -> find ap_start ast = Some st -> lalr_new parse hash g = Ok l ->
  quotes_ok g -> codes_ok ast -> kinds_distinct g -> (forall s, named ast (IStr s) -> unq 39 s = Some s) ->
  Forall2 (fun x h => sym_hir parse x = Some h) (lex_syms g) hs -> split_refines hs -> Forall productive hs ->
  exists ltext T ptext P, lex_generate (l_lexer l) = Ok ltext /\ ReadLex ltext T /\ parse_generate ast l = Ok ptext /\ ReadParse ptext P /\
  forall V size code has_type regex_holds chars input, fits size (l_lexer l) -> own_codes chars ->
  (forall c, In c input -> map_get c chars <> None /\ (c <= N.of_nat size)%N) -> length input <= size ->
  well_typed code has_type regex_holds ast -> (forall r v, named ast (IReg r) -> regex_holds (Some (TLit v)) = true) ->
  let X := ts_pipeline size chars T P (EmitProduction V size ast code has_type regex_holds) input in
  exists ts r syms, Tokenize (begins parse g) (is_sym parse g) 0 input ts r /\
  Forall2 (fun x s => nth_error (lex_syms g) (snd (fst x)) = Some s) ts syms /\
  ((exists s, X = Some (PStack s)) <->
   unfinished (begins parse g) input ts r /\
   exists tr j, tree_ok g tr /\ root g tr = Some (SNon (ap_name st)) /\ yield tr = syms /\ moves g (l_tables l) 0 tr j /\
     length syms + length (postorder tr) < 50) /\
  (closed g (l_tables l) -> (exists s, X = Some (PStack s)) <->
   unfinished (begins parse g) input ts r /\
   exists tr, tree_ok g tr /\ root g tr = Some (SNon (ap_name st)) /\ yield tr = syms /\ length syms + length (postorder tr) < 50) /\
  (unfinished (begins parse g) input ts r -> forall tr, tree_ok g tr -> root g tr = Some (SNon (ap_name st)) -> yield tr = syms ->
   closed g (l_tables l) \/ (exists j, moves g (l_tables l) 0 tr j) -> length syms + length (postorder tr) < 50 ->
   exists toks us v, toks_texts toks = map drop_idx ts /\ toks_syms toks = syms /\ Forall2 carries toks us /\
     Denotes V g code tr us (SymNon (ap_name st) v) /\ X = Some (PStack [SymNon (ap_name st) v])).
Proof.
  intros parse hash text ast g l st hs Hfs Hg Hst Hl Hq Hc Hk Hlit Hhs Hsd Hpr.
  assert (Hf : file_ast ast) by (apply (C52_file_ast text), C51_reading, Hfs).
  destruct (file_plain _ _ Hf Hg) as [Hp Hfr]. pose proof (kinds_no_clash g Hq Hk) as Hno.
  destruct (new_parts _ _ _ _ Hl) as (_ & HL & Ht). destruct (from_grammar_inv _ _ _ HL) as (tokens & Et & EL).
  destruct (pipeline_core parse hash ast g l st tokens Hf Hg Hst Hl Hq Hc Hk Hlit Et) as (ltext & T & ptext & P & E1 & E2 & E3 & E4 & H).
  exists ltext, T, ptext, P. split; auto. split; auto. split; auto. split; auto.
  intros V size code has_type regex_holds chars input Hfit Hown Hin Hlen Hwt Hreg X.
  specialize (H V size code has_type regex_holds chars input Hfit Hown Hin Hlen Hwt Hreg). cbv zeta in H. fold X in H.
  assert (hs = map snd tokens) as ->.
  { pose proof (defs_aligned _ _ _ _ Et) as HD. unfold lex_syms in Hhs. revert HD Hhs. generalize (filter lexical (g_tokens g)) as ys.
    clear. intros ys HD. revert hs. induction HD as [|y th ys ths (Hy & _) _ IH]; intros hs H; inversion H; subst; auto.
    simpl. f_equal; [congruence|auto]. }
  rewrite Forall_forall in Hpr.
  destruct (lex_all tokens _ input EL) as (lv & ac & ts & r & i & HT & _ & _ & Hrun & _ & Hle & Hh & Hs & Hex).
  destruct (Hex Hsd) as [Hac Hlv]. specialize (Hlv Hpr).
  assert (Hlv' : forall w, w <> [] -> (lv w <-> begins parse g w)) by (intros w Hw; rewrite (Hlv w Hw); apply begins_viable; auto).
  assert (Hac' : forall w j, w <> [] -> (ac w j <-> is_sym parse g w j)) by (intros w j Hw; rewrite (Hac w j Hw); apply first_is_sym; auto).
  apply (halts_ext _ _ _ _ _ _ Hlv') in Hh.
  assert (Hts : forall p j u, In (p, j, u) ts -> exists td h, nth_error tokens j = Some (td, h) /\ Lang h u).
  { intros p j u Hx. destruct (tokenize_longest _ _ _ _ _ _ HT p j u Hx) as (a & b & _ & _ & (_ & Hau & _)).
    apply Hs in Hau as (h & Hj & HLg). rewrite nth_error_map in Hj. destruct (nth_error tokens j) as [[td h']|]; [|discriminate]. injection Hj as <-. eauto. }
  assert (Hsyms : exists syms, Forall2 (fun x s => nth_error (lex_syms g) (snd (fst x)) = Some s) ts syms).
  { clear - Hts Et. induction ts as [|[[p j] u] ts IH]; [exists []; constructor|].
    destruct IH as [syms HF]; [intros; eapply Hts; right; eauto|]. destruct (Hts p j u) as (td & h & Hn & _); [left; auto|].
    destruct (def_sym _ _ _ Et _ _ _ Hn) as (k & x & Hx & _). exists (x :: syms). constructor; auto. }
  destruct Hsyms as (syms & HF).
  exists ts, r, syms. split; [revert HT; apply tokenize_ext; auto|]. split; auto.
  assert (Hsl : length syms = length ts) by (clear -HF; induction HF; cbn [length]; congruence).
  destruct (H ts i Hrun Hts) as [[Hi HX]|(Hi & us & w & Y & Hsame & Hwl & Hus & Hend & HX & HY & _)]; clear H.
  { assert (Hnu : ~ unfinished (begins parse g) input ts r) by (destruct Hh as [[Hz _]|[Hn _]]; [lia|exact Hn]).
    rewrite HX. split; [|split; [intros _|intros Hu; contradiction]]; (split; [intros [s E]; discriminate|]); intros [Hu _]; contradiction. }
  assert (Hunf : unfinished (begins parse g) input ts r) by (destruct Hh as [[_ Hu]|(_ & u & x & v & _ & Hx & _)]; [exact Hu|lia]).
  assert (Hw : symbols g w syms).
  { apply Forall2_app_inv_l in Hus as (w1 & w2 & Hus & Hus2 & Ew). inversion Hus2 as [|? ? ? ? _ Hnil]; subst. inversion Hnil; subst.
    apply app_inj_tail in Ew as [<- _]. apply plain_spelt in Hsame; [|intros [[p j] u] Hx; cbn; destruct (Hts p j u Hx) as (td & h & Hn & _); apply nth_error_lt in Hn; exact Hn].
    clear - Hsame Hus HF Et Hk Hq. unfold symbols. revert syms w HF Hus. induction Hsame as [|[[p j] u] y ts us Hy _ IH]; intros syms w HF Hus.
    - inversion HF; subst. inversion Hus; subst. reflexivity.
    - inversion HF as [|? x ? syms' Hx HF']; subst. inversion Hus as [|? k ? w' Hyk Hus']; subst. cbn [map]. f_equal; [|apply IH; auto].
      destruct Hy as (td & h & kind & Hn & Eq & ->). destruct Hyk as (x' & n & v & Hg & Hkd & E). injection E as <- _.
      destruct (def_sym _ _ _ Et _ _ _ Hn) as (k' & x0 & Hx0 & Hk' & Hg' & _). cbn [fst snd] in Hx. rewrite Hx in Hx0. injection Hx0 as <-.
      pose proof (nth_error_In _ _ Hn) as Hi. apply (grammar_tokens_spec _ _ _ Et) in Hi as (k2 & x2 & n2 & Hk2 & Hx2 & -> & _).
      cbn [td_idx] in Hk'. injection Hk' as ->. assert (x2 = x) by congruence. subst x2. cbn [td_name] in Eq.
      assert (Hqn : unq 39 n2 <> None) by (apply Hq; apply nth_error_In in Hg'; destruct x; try discriminate; injection Hx2 as ->; auto).
      destruct (unq 39 n2) as [n'|] eqn:E39; [|congruence]. pose proof (unq_same _ _ _ Eq E39) as <-.
      assert (Hkx : token_kind x kind) by (destruct x; try discriminate; injection Hx2 as ->; exact E39).
      assert (k = k') by (apply (Hk k k' x' x kind); auto). subst k'. exact Hg'. }
  assert (Htree : forall tr, parse_tree g (ap_name st) w tr <-> tree_ok g tr /\ root g tr = Some (SNon (ap_name st)) /\ yield tr = syms).
  { intros tr. unfold parse_tree. split; intros (H1 & H2 & H3); (split; [exact H1|split; [exact H2|]]); [|rewrite H3; exact Hw].
    unfold symbols in *. rewrite Hw in H3. clear -H3. revert H3. generalize (yield tr). induction syms as [|x l IH]; intros [|y l'] E; try discriminate; auto.
    injection E as -> E. f_equal. auto. }
  assert (Hacc : (exists s, X = Some (PStack s)) <-> unfinished (begins parse g) input ts r /\
     exists tr j, tree_ok g tr /\ root g tr = Some (SNon (ap_name st)) /\ yield tr = syms /\ moves g (l_tables l) 0 tr j /\ length syms + length (postorder tr) < 50).
  { rewrite HX. unfold agrees in HY. split.
    - intros [s E]. injection E as ->. split; auto.
      destruct (parse_impl g (l_tables l) (w ++ [0])) as [ps|p|] eqn:Eps.
      + destruct (Nat.ltb_spec (length w + length ps) 50) as [Hlt|]; [|discriminate].
        apply (C30_accepts_iff _ _ _ Hg Hst Hp Hfr _ _ Ht _ _ _ Hend) in Eps as (tr & j & Htr & Hm & ->).
        apply Htree in Htr as (H1 & H2 & H3). exists tr, j. repeat (split; auto). lia.
      + exfalso. destruct HY as [HY|[(_ & a & l' & HY)|[_ HY]]]; discriminate.
      + discriminate.
    - intros (_ & tr & j & H1 & H2 & H3 & Hm & Hlt).
      assert (Eps : parse_impl g (l_tables l) (w ++ [0]) = Ok (postorder tr)).
      { apply (C30_accepts_iff _ _ _ Hg Hst Hp Hfr _ _ Ht _ _ _ Hend). exists tr, j. split; [apply Htree; auto|auto]. }
      rewrite Eps in HY. destruct (Nat.ltb_spec (length w + length (postorder tr)) 50); [|lia]. destruct HY as (tr' & v & -> & _). eauto. }
  split; [exact Hacc|]. split.
  2: { intros _ tr H1 H2 H3 Hm Hlt.
    assert (Hps : parse_impl g (l_tables l) (w ++ [0]) = Ok (postorder tr)).
    { destruct Hm as [Hcl|[j Hm]].
      - destruct (C30_completeness_partial _ _ _ Hg Hst Hp Hfr _ _ Ht Hcl _ _ Hend) as [Hcomp _]. apply Hcomp, Htree. auto.
      - apply (C30_accepts_iff _ _ _ Hg Hst Hp Hfr _ _ Ht _ _ _ Hend). exists tr, j. split; [apply Htree; auto|auto]. }
    rewrite Hps in HY. cbn [agrees] in HY. assert (Hwl' : length w = length syms) by congruence.
    destruct (Nat.ltb_spec (length w + length (postorder tr)) 50); [|lia]. destruct HY as (tr' & v & -> & (T1 & T2 & T3) & Epo & Hden).
    assert (tr = tr') as <- by (eapply post_inj; eauto; congruence).
    assert (Hul : length w = length us).
    { rewrite Hwl. rewrite <- (map_length (plain_token tokens) ts). clear -Hsame. induction Hsame; cbn [length]; congruence. }
    rewrite firstn_app, Hul, Nat.sub_diag, firstn_all, app_nil_r in Hden.
    destruct (toks_syms_of parse g tokens ts us Et Hq) as (toks & Em & _ & Hcar & HF2); auto.
    exists toks, us, v. split; [exact Em|]. split; [eapply nth_syms_det; eauto|]. auto. }
  intros Hcl. rewrite Hacc. split.
  - intros (Hu & tr & j & H1 & H2 & H3 & _ & Hlt). split; auto. exists tr. auto.
  - intros (Hu & tr & H1 & H2 & H3 & Hlt). split; auto.
    destruct (C30_completeness_partial _ _ _ Hg Hst Hp Hfr _ _ Ht Hcl _ _ Hend) as [Hcomp _].
    specialize (Hcomp tr (proj2 (Htree tr) (conj H1 (conj H2 H3)))).
    apply (C30_accepts_iff _ _ _ Hg Hst Hp Hfr _ _ Ht _ _ _ Hend) in Hcomp as (tr' & j & Htr' & Hm & Epo).
    apply Htree in Htr' as (H1' & H2' & H3'). exists tr', j. repeat (split; auto). rewrite <- Epo. exact Hlt.
Qed.
Print Assumptions C57_accepts_iff_partial.

(** The committed grammar file meets the hypotheses, and its tables miss no transition. *)
Example C57_nonvacuous :
  exists g l c st hs, file_says lisp_text lisp_ast /\ grammar_from_ast lisp_ast = Ok g /\ find ap_start lisp_ast = Some st /\ lalr_new lisp_regex ehash g = Ok l /\
  quotes_ok g /\ codes_ok lisp_ast /\ kinds_distinct g /\ (forall s, named lisp_ast (IStr s) -> unq 39 s = Some s) /\ fits 200 (l_lexer l) /\ own_codes abc /\
  Forall2 (fun x h => sym_hir lisp_regex x = Some h) (lex_syms g) hs /\ split_refines hs /\ Forall productive hs /\ closed g (l_tables l) /\
  well_typed count (fun _ _ => true) (fun _ => true) lisp_ast /\
  lex_ctx_new (l_lexer l) = Ok c /\
  ts_pipeline 200 abc (tables_of c) (the_tables g (l_tables l)) (EmitProduction nat 200 lisp_ast count (fun _ _ => true) (fun _ => true)) (tx "(add 12)") =
    Some (PStack [SymNon (tx "SExpr") 5]).
Proof.
  destruct C50_nonvacuous as (g & l & c & Eg & El & _ & Hq & Hc & Hk & Hlit & Hfit & Hown & Hwt & EC & Hrun & _).
  destruct (find ap_start lisp_ast) as [st|] eqn:Es; [|discriminate Es].
  destruct (grammar_tokens lisp_regex g) as [tokens| |] eqn:Et; [|vm_compute in Eg; injection Eg as <-; vm_compute in Et; discriminate Et..].
  exists g, l, c, st, (map snd tokens). split; [apply C51_nonvacuous|]. split; auto. split; auto. split; auto. do 6 (split; auto).
  clear - Eg El Et Hwt EC Hrun. split; [|split; [|split; [|split; [|split; [|split]]]]]; auto.
  - vm_compute in Eg. injection Eg as <-. vm_compute in Et. injection Et as <-. repeat constructor.
  - vm_compute in Eg. injection Eg as <-. vm_compute in Et. injection Et as <-. apply split_b_ok. vm_compute. reflexivity.
  - vm_compute in Eg. injection Eg as <-. vm_compute in Et. injection Et as <-.
    repeat (constructor; [apply productive_hb_ok; vm_compute; reflexivity|]). constructor.
  - vm_compute in Eg. injection Eg as <-. vm_compute in El. injection El as <-. apply ParseCheck.closed_b_ok. vm_compute. reflexivity.
Qed.

(** The rest need not be empty: for the committed grammar, the type of "(add 12)ad" is that of
    "(add 12)", although no reading covers all of it. *)
Lemma layout_last pos s ts : Layout pos s ts [] -> forall a c, s = a ++ [c] -> ~ white c ->
  exists ts' p u b, ts = ts' ++ [(p, u ++ [c])] /\ s = b ++ u ++ [c].
Proof.
  intros H. remember [] as r eqn:Er. induction H as [pos r|pos u v ts r Hu H IH|pos c' v ts r Hw H IH]; subst; intros a c E Hc.
  - destruct a; discriminate.
  - destruct v as [|c0 v0].
    + rewrite app_nil_r in *. assert (ts = []) as ->.
      { clear - H. inversion H as [|? u' v' ? ? Hu' ? Ea|]; auto. destruct u'; [congruence|discriminate]. }
      subst u. exists [], pos, a, []. split; auto.
    + destruct (exists_last (l := c0 :: v0)) as (v' & c'' & Ev); [discriminate|]. rewrite Ev in *. rewrite app_assoc in E. apply app_inj_tail in E as [E <-].
      destruct (IH eq_refl v' c'' eq_refl Hc) as (ts' & p & u' & b & -> & Eb). exists ((pos, u) :: ts'), p, u', (u ++ b). split; auto.
      rewrite <- app_assoc. f_equal. exact Eb.
  - destruct v as [|c0 v0].
    + destruct a as [|a0 a]; [|destruct a; discriminate]. injection E as <-. contradiction.
    + destruct (exists_last (l := c0 :: v0)) as (v' & c'' & Ev); [discriminate|]. rewrite Ev in *.
      change (c' :: v' ++ [c'']) with ((c' :: v') ++ [c'']) in E. apply app_inj_tail in E as [_ <-].
      destruct (IH eq_refl v' c'' eq_refl Hc) as (ts' & p & u' & b & -> & Eb). exists ts', p, u', (c' :: b). split; auto. cbn [app]. f_equal. exact Eb.
Qed.

Theorem C57_rest_refuted :
  exists parse text ast g l ltext T ptext P chars input s, file_says text ast /\ grammar_from_ast ast = Ok g /\ lalr_new parse ehash g = Ok l /\
  lex_generate (l_lexer l) = Ok ltext /\ ReadLex ltext T /\ parse_generate ast l = Ok ptext /\ ReadParse ptext P /\ own_codes chars /\
  (forall c, In c input -> map_get c chars <> None) /\ ascii input /\
  ts_pipeline 200 chars T P (EmitProduction nat 200 ast count (fun _ _ => true) (fun _ => true)) input = Some (PStack s) /\
  forall toks, ~ reading parse g input toks [].
Proof.
  destruct C57_nonvacuous as (g & l & c & st & hs & Hfs & Eg & Hst & El & Hq & Hc & Hk & Hlit & Hfit & Hown & _ & _ & _ & _ & Hwt & EC & _).
  assert (Hf : file_ast lisp_ast) by (apply (C52_file_ast lisp_text), C51_reading, Hfs).
  destruct (C50_accepts_iff_partial _ _ lisp_ast g l st Hf Eg Hst El Hq Hc Hk Hlit) as (ltext & T & ptext & P & E1 & E2 & E3 & E4 & H).
  set (input := tx "(add 12)ad").
  assert (Ha : ascii input) by (repeat constructor; lia).
  assert (Hch : forall c, In c input -> map_get c abc <> None) by (intros x Hx; repeat (destruct Hx as [<-|Hx]; [vm_compute; discriminate|]); destruct Hx).
  destruct (H nat 200 count (fun _ _ => true) (fun _ => true) abc input Hfit Hown Hch Ha ltac:(apply Nat.leb_le; reflexivity) Hwt (fun _ _ _ => eq_refl)) as [_ H']. clear H.
  destruct H' as [s Hs].
  { clear - Eg El. split.
    - vm_compute in Eg. injection Eg as <-. vm_compute in El. injection El as <-. apply (ends_at_b 40). vm_compute. reflexivity.
    - destruct (lex (l_lexer l) input) as [out| |] eqn:Eo; [|clear - Eg El Eo; vm_compute in Eg; injection Eg as <-; vm_compute in El; injection El as <-; vm_compute in Eo; discriminate Eo..].
      destruct (lalr_parse l input) as [ps| |] eqn:Ep; [|clear - Eg El Ep; vm_compute in Eg; injection Eg as <-; vm_compute in El; injection El as <-; vm_compute in Ep; discriminate Ep..].
      exists out, ps. split; auto. split; auto. vm_compute in Eg. injection Eg as <-. vm_compute in El. injection El as <-.
      vm_compute in Eo. injection Eo as <-. vm_compute in Ep. injection Ep as <-. apply Nat.ltb_lt. reflexivity. }
  exists lisp_regex, lisp_text, lisp_ast, g, l, ltext, T, ptext, P, abc, input, s.
  do 10 (split; auto). split; auto. intros toks [HL Hin]. clear - Eg HL Hin.
  destruct (layout_last _ _ _ HL (tx "(add 12)a") 100%N eq_refl) as (ts' & p & u & b & Em & Eb); [unfold white; lia|].
  assert (exists q x, In (q, x, u ++ [100]%N) toks) as (q & x & Hx).
  { assert (Hi : In (p, u ++ [100]%N) (toks_texts toks)) by (rewrite Em; apply in_or_app; right; left; reflexivity).
    apply in_map_iff in Hi as ([[q x] v] & E & Hi). cbn in E. injection E as -> <-. eauto. }
  destruct (Hin _ _ _ Hx) as [Hs Hl]. clear - Eg Hs Hl Eb. vm_compute in Eg. injection Eg as <-.
  assert (Hrev : rev (u ++ [100]%N) ++ rev b = rev input) by (rewrite Eb, <- rev_app_distr; reflexivity).
  vm_compute in Hs. repeat (destruct Hs as [<-|Hs]; [try (cbn [sym_lang] in Hl; rewrite Hl in Hrev; vm_compute in Hrev; discriminate Hrev)|]); [|destruct Hs].
  destruct Hl as (h & Eh & Hl). vm_compute in Eh. injection Eh as <-.
  destruct (lang_chars _ _ Hl 100%N) as (m & Hm & Hcv); [apply in_or_app; right; left; reflexivity|].
  apply NfaLive.written_label in Hm. vm_compute in Hm. unfold covers in Hcv. repeat (destruct Hm as [<-|Hm]; [cbn in Hcv; lia|]). destruct Hm.
Qed.
Print Assumptions C57_rest_refuted.
