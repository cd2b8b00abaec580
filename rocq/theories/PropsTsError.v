(** Property C68: what the type of a parse that fails shows. *)
From Coq Require Import Ascii String.
From Verif Require Import Base Text Regex Nfa Dfa Lex LexSpec LexLoop LexProofs Utf8Spec Utf8Proofs Grammar GrammarSpec GrammarProofs First Item Table TableProofs TableFacts LexGrammar LexGrammarProofs
  Parse ParseSpec Auto ParseProofs ParseTerm Report ReportSpec ReportProofs Lalr EndSpec EndProofs PropsGrammar PropsEnd Witness
  LexGen LexGenProofs LexGenLexer TsText TsTextFacts TsScan TsTables TsModule TsModuleFacts ParseGenSpec ParseGen ParseGenProofs ParseGenFile ParseGenEmit ParseGenCheck PropsLexGen PropsParseGen Lisp
  TsUtil TsLex TsLexProofs PropsTsLex TsParse TsParseSpec TsParseProofs PropsTsParse TsErrorSpec
  GrammarFile GrammarFileSpec GrammarFileProofs PropsGrammarFile PropsWhole.
From Verif Require Import TreeFacts.
From Verif Require PropsReport.
Local Open Scope list_scope.

Lemma rel_shows V g t code has_type us tokens w n c ts st syms : rel g t V code has_type us tokens w n c ts st syms -> shows V g code us w (ps_i c) syms.
Proof.
  intros R. pose proof (r_inv _ _ _ _ _ _ _ _ _ _ _ _ _ R) as (Hs & _ & Hi & _ & Hy). split; auto. exists (rev ts).
  split; [apply Forall_rev; eapply stacked_ok, Hs|]. split; auto. apply (r_den _ _ _ _ _ _ _ _ _ _ _ _ _ R).
Qed.

Lemma result_explained hash ast g t P st : file_ast ast -> grammar_from_ast ast = Ok g -> find ap_start ast = Some st -> make_tables hash g = Ok t ->
  (exists text, ReadParse text P) -> tables_of_grammar g t P ->
  forall V size code has_type regex_holds us tokens w, 50 <= size -> Forall2 (is_token g) us tokens -> ParseSpec.ended tokens w ->
  explained V ast g (ap_name st) t code has_type regex_holds us tokens w (Parse V size P (EmitProduction V size ast code has_type regex_holds) us).
Proof.
  intros Hf Hg Hst Ht HRP TG V size code has_type regex_holds us tokens w Hs Hus Hend.
  pose proof (tables_sim hash ast g t P st Hf Hg Hst Ht HRP TG V size code has_type regex_holds us tokens w Hs Hus Hend) as Hag. cbv zeta in Hag.
  destruct HRP as (text & b & _ & HR).
  destruct (file_plain _ _ Hf Hg) as [[He Heof] Hfr]. destruct (grammar_from_ast_ok _ _ Hg) as (st' & Hst' & W & Est & _).
  assert (st' = st) by congruence. subst st'. pose proof (tables_auto g (ap_name st) W Est hash t Ht) as A.
  destruct HR as (_ & _ & _ & N1 & _ & N2 & N3 & _ & N4 & N5 & _ & N6).
  destruct (inv_init g t tokens w Hend) as (a & tl & Et & _).
  assert (Ea : nth_error tokens 0 = Some a) by (subst tokens; reflexivity).
  pose proof (sim_result ast g (ap_name st) t P Hg W A Heof Hfr TG N1 N2 N3 N4 N5 N6 V size code has_type regex_holds Hs us tokens w Hus Hend a Ea) as H.
  set (X := Parse V size P (EmitProduction V size ast code has_type regex_holds) us) in *.
  destruct H as [c' Hn HX|m c' ts syms r Hm Hn R Er Hc|m c' c2 ts syms q s p Hm Hn R Es E2 Etr Hcf HX].
  - rewrite HX. exists c', a. auto.
  - assert (Hrc : reached g t tokens c') by (exists a, tl, m; auto).
    pose proof (reached_end g (ap_name st) W Est hash t Ht He Heof tokens w c' r Hend Hrc Er) as Ei.
    destruct Hc as [[-> HX]|[[-> HX]|[-> HX]]].
    + rewrite HX in *. destruct Hag as [(_ & q & a0 & l & E)|Hag]; [discriminate|]. unfold agrees in Hag. rewrite Ei in Hag.
      destruct (_ <? _); [|discriminate]. destruct Hag as (tr & v & El & HP & Etr & HD). injection El as ->.
      exists tr, v. rewrite <- Etr. auto.
    + rewrite HX. exists (ps_i c'), (ps_a c'). split; auto. pose proof (r_inv _ _ _ _ _ _ _ _ _ _ _ _ _ R) as (_ & _ & _ & Ha & _).
      split; auto. split; [eapply rel_shows, R|]. split; auto. split.
      * intros Hp. eapply reached_viable; eauto.
      * intros Hcl. eapply invalid_wrong; eauto.
    + rewrite HX. exact Ei.
  - rewrite HX. exists m, c', c2, q, s, p. split; [exists a; auto|]. split; auto. split; auto. split; auto. split; auto.
    split; [eapply rel_shows, R|]. split; auto. split; auto.
    destruct Hcf as (pr & b0 & Hp1 & Hp & Hb & Hch). exists pr, b0, (rev (skipn (length (p_syms pr)) syms)), (rev (firstn (length (p_syms pr)) syms)).
    split; auto. split; auto. split; auto. split; [rewrite <- rev_app_distr, firstn_skipn; reflexivity|].
    split; [|apply andb_false_iff in Hch; exact Hch].
    rewrite rev_length, firstn_length_le; auto.
    (* the symbols of the body are on the stack *)
    pose proof (den_length _ _ _ _ _ _ (r_den _ _ _ _ _ _ _ _ _ _ _ _ _ R)) as Hl. rewrite !rev_length in Hl.
    pose proof (proj1 (r_inv _ _ _ _ _ _ _ _ _ _ _ _ _ R)) as Hst0. pose proof (step_outcome g t A tokens c' ts Hst0) as Ho. rewrite E2 in Ho.
    inversion Ho as [q0 s0 x j H1 H2 H3 H4 H5 H6|p0 pr0 q' s' j q0 s0 k' H1 H2 H3 H4 H5 H6 H7 H8 H9 H10 H11 H12| | |]; subst c2; cbn [ps_trace] in Etr.
    + exfalso. apply (f_equal (@length nat)) in Etr. rewrite app_length in Etr. cbn in Etr. lia.
    + apply app_inj_tail in Etr as [_ ->]. rewrite Hp in H2. injection H2 as <-. lia.
Qed.

(** For a grammar file as in C47, whatever the code, the types and the values: on the generated
    tables every result of the TypeScript parser is explained. *)
Theorem C68_explained_partial :
  forall hash ast g t L st, file_ast ast -> grammar_from_ast ast = Ok g -> find ap_start ast = Some st -> make_tables hash g = Ok t ->
  quotes_ok g -> codes_ok ast -> kinds_distinct g ->
  exists text P, parse_generate ast (Lalr g L t) = Ok text /\ ReadParse text P /\
  forall V size code has_type regex_holds us tokens w, 50 <= size -> Forall2 (is_token g) us tokens -> ParseSpec.ended tokens w ->
  explained V ast g (ap_name st) t code has_type regex_holds us tokens w (Parse V size P (EmitProduction V size ast code has_type regex_holds) us).
Proof.
  intros hash ast g t L st Hf Hg Hst Ht Hq Hc Hk. destruct (C47_tables_partial hash ast g t L Hf Hg Ht Hq Hc Hk) as (text & P & E & HR & _ & TG).
  exists text, P. split; auto. split; auto. intros. eapply result_explained; eauto.
Qed.
Print Assumptions C68_explained_partial.

(** ** The types of texts *)

(** The types on a text, whatever the code and the types. *)
Lemma pipeline_explained parse hash ast g l st tokens : file_ast ast -> grammar_from_ast ast = Ok g -> find ap_start ast = Some st -> lalr_new parse hash g = Ok l ->
  quotes_ok g -> codes_ok ast -> kinds_distinct g -> (forall s, named ast (IStr s) -> unq 39 s = Some s) -> grammar_tokens parse g = Ok tokens ->
  exists ltext T ptext P, lex_generate (l_lexer l) = Ok ltext /\ ReadLex ltext T /\ parse_generate ast l = Ok ptext /\ ReadParse ptext P /\
  forall V size code has_type regex_holds chars input, fits size (l_lexer l) -> own_codes chars ->
  (forall c, In c input -> map_get c chars <> None /\ (c <= N.of_nat size)%N) -> length input <= size ->
  forall ts i, char_run (l_lexer l) input (map (plain_token tokens) ts) i ->
  (forall p i u, In (p, i, u) ts -> exists td h, nth_error tokens i = Some (td, h) /\ Lang h u) ->
  let X := ts_pipeline size chars T P (EmitProduction V size ast code has_type regex_holds) input in
  (i < length input /\ X = None) \/
  (i = length input /\ exists us w Y, Forall2 same_token (map (plain_token tokens) ts) us /\ length w = length ts /\
     Forall2 (is_token g) (us ++ [EOF]) (w ++ [0]) /\ ParseSpec.ended (w ++ [0]) w /\ X = Some Y /\
     explained V ast g (ap_name st) (l_tables l) code has_type regex_holds (us ++ [EOF]) (w ++ [0]) w Y).
Proof.
  intros Hf Hg Hst Hl Hq Hc Hk Hlit Et. destruct (new_parts _ _ _ _ Hl) as (Egl & HL & Ht).
  pose proof HL as EL. unfold from_grammar in EL. rewrite Et in EL. cbn [bind] in EL.
  pose proof (grammar_readable _ _ _ Et Hq) as Hr.
  destruct (C47_tables_partial hash ast g (l_tables l) (l_lexer l) Hf Hg Ht Hq Hc Hk) as (ptext & P & Ep & HRP & _ & TG).
  destruct (C41_tables_partial tokens _ EL Hr) as (ltext & T & E1 & E2 & Hdet & _). exists ltext, T, ptext, P.
  split; auto. split; auto. split; [rewrite <- Ep; rewrite <- Egl; destruct l; reflexivity|]. split; auto.
  intros V size code has_type regex_holds chars input Hfit Hown Hin Hlen ts i Hrun Hts X.
  destruct (ts_lex_chars tokens _ size chars input EL Hr Hfit Hown Hin Hlen) as (text' & T' & E1' & E2' & Hcase).
  rewrite E1 in E1'. apply ok_inj in E1'. subst text'. pose proof (Hdet _ E2') as ->.
  destruct (Hcase _ _ Hrun) as [(Ei & us & Ets & Hsame)|(Hi & c & _ & Ets)]; [right|left].
  - split; auto. destruct (lexed_tokens parse ast g l Hg Hq Hk HL Egl Hlit tokens ts us Et Hts Hsame) as (w & _ & Hwend & Hwl & Hus & _ & _).
    exists us, w. unfold X, ts_pipeline. rewrite Ets. eexists. split; auto. split; auto. split; auto. split; auto. split; [reflexivity|].
    destruct Hfit as (Hs & _). eapply result_explained; eauto. lia.
  - split; auto. unfold X, ts_pipeline. rewrite Ets. reflexivity.
Qed.

Lemma symbols_firstn g w l i : symbols g w l -> symbols g (firstn i w) (firstn i l).
Proof. unfold symbols. intros H. rewrite <- !firstn_map, H. reflexivity. Qed.
Lemma symbols_fun g w l l' : symbols g w l -> symbols g w l' -> l = l'.
Proof.
  unfold symbols. intros -> H. revert l' H. induction l as [|x l IH]; intros [|y l'] H; try discriminate; auto. injection H as -> H. f_equal; auto.
Qed.
Lemma symbols_length g w l : symbols g w l -> length w = length l.
Proof. unfold symbols. intros H. apply (f_equal (@length _)) in H. rewrite !map_length in H. exact H. Qed.
Lemma symbols_app g w l w' l' : symbols g w l -> symbols g w' l' -> symbols g (w ++ w') (l ++ l').
Proof. unfold symbols. intros H H'. rewrite !map_app, H, H'. reflexivity. Qed.

(** The numbers of the tokens are those of their symbols. *)
Lemma numbers_symbols parse g toks us w : kinds_distinct g -> (forall p x u, In (p, x, u) toks -> In x (lex_syms g) /\ sym_lang parse x u) ->
  Forall2 carries toks us -> Forall2 (is_token g) us w -> symbols g w (toks_syms toks).
Proof.
  intros Hk Hin HC. revert w. induction HC as [|[[p x] u] y toks us (n & Hn & ->) _ IH]; intros w HF; inversion HF as [|? k ? w' Hy HF']; subst; [reflexivity|].
  unfold symbols, toks_syms in *. cbn [map fst snd] in *. f_equal; [|apply IH; auto; intros; eapply Hin; right; eauto].
  destruct Hy as (x' & n' & v & Hx' & Hn' & E). injection E as <- _. destruct (Hin p x u) as [Hx _]; [left; auto|].
  apply filter_In in Hx as [Hx _]. apply In_nth_error in Hx as [k' Hk']. assert (k = k') by (apply (Hk k k' x' x n); auto). subst k'. exact Hk'.
Qed.

(** Derived symbols are symbols of the grammar. *)
Lemma derives_known ast g A l : grammar_from_ast ast = Ok g -> derives g [SNon A] l -> terminals l -> Forall (fun x => In x (g_tokens g)) l.
Proof.
  intros Hg Hd Ht. destruct (grammar_from_ast_ok _ _ Hg) as (st & _ & W & _).
  assert (G : forall a b, derives g a b -> Forall (fun x => terminal x -> In x (g_tokens g)) a -> Forall (fun x => terminal x -> In x (g_tokens g)) b).
  { induction 1 as [a|a b c H1 _ IH]; auto. intros HF. apply IH. destruct H1 as [a0 B b0 c0 (pr & Hp & _ & Hs)].
    apply Forall_app in HF as [HF1 HF2]. inversion HF2; subst. apply Forall_app. split; auto. apply Forall_app. split; auto.
    apply Forall_forall. intros x Hx _. eapply token_of_body; eauto. }
  specialize (G _ _ Hd). assert (HF : Forall (fun x => terminal x -> In x (g_tokens g)) l).
  { apply G. constructor; [intros Hx; exfalso; apply (Hx A); reflexivity|constructor]. }
  unfold terminals in Ht. rewrite Forall_forall in *. auto.
Qed.
Lemma known_numbers g l : Forall (fun x => In x (g_tokens g)) l -> exists w, symbols g w l.
Proof.
  induction 1 as [|x l Hx _ [w Hw]]; [exists []; reflexivity|]. apply In_nth_error in Hx as [k Hk]. exists (k :: w).
  unfold symbols in *. cbn [map]. f_equal; auto.
Qed.

(** For a grammar file as in C50, read from its text: when the type of a text is the error for a
    token, the text is white space and texts of symbols up to a rest, and the symbols shown are
    these texts up to a place and values of trees over them.  The number shown is that of the next
    symbol, or of the end.  What is before can be completed to a sentence if every symbol derives
    something; with the next symbol it cannot, if no transition is missing. *)
Theorem C68_text_partial :
  forall parse hash text ast g l st, file_says text ast -> grammar_from_ast ast = Ok g -> find ap_start ast = Some st -> lalr_new parse hash g = Ok l ->
  quotes_ok g -> codes_ok ast -> kinds_distinct g -> (forall s, named ast (IStr s) -> unq 39 s = Some s) ->
  exists ltext T ptext P, lex_generate (l_lexer l) = Ok ltext /\ ReadLex ltext T /\ parse_generate ast l = Ok ptext /\ ReadParse ptext P /\
  forall V size code has_type regex_holds chars input, fits size (l_lexer l) -> own_codes chars ->
  (forall c, In c input -> map_get c chars <> None /\ (c <= N.of_nat size)%N) -> length input <= size ->
  forall a shown, ts_pipeline size chars T P (EmitProduction V size ast code has_type regex_holds) input = Some (PInvalid a shown) ->
  exists toks rest us i trs, reading parse g input toks rest /\ Forall2 carries toks us /\ i <= length toks /\
    Forall (tree_ok g) trs /\ flat_map yield trs = firstn i (toks_syms toks) /\ DenotesAll V g code trs (firstn i us) (rev shown) /\
    (all_productive g -> exists z, terminals z /\ derives g [SNon (ap_name st)] (firstn i (toks_syms toks) ++ z)) /\
    match nth_error (toks_syms toks) i with
    | Some x => get_token g (N.to_nat a) = Some x /\
        (closed g (l_tables l) -> ~ exists z, terminals z /\ derives g [SNon (ap_name st)] (firstn i (toks_syms toks) ++ x :: z))
    | None => a = 0%N /\ (closed g (l_tables l) -> ~ derives g [SNon (ap_name st)] (toks_syms toks))
    end.
Proof.
  intros parse hash text ast g l st Hfs Hg Hst Hl Hq Hc Hk Hlit.
  assert (Hf : file_ast ast) by (apply (C52_file_ast text), C51_reading, Hfs).
  destruct (new_parts _ _ _ _ Hl) as (_ & HL & _). destruct (from_grammar_inv _ _ _ HL) as (tokens & Et & EL).
  destruct (pipeline_explained parse hash ast g l st tokens Hf Hg Hst Hl Hq Hc Hk Hlit Et) as (ltext & T & ptext & P & E1 & E2 & E3 & E4 & H).
  exists ltext, T, ptext, P. split; auto. split; auto. split; auto. split; auto.
  intros V size code has_type regex_holds chars input Hfit Hown Hin Hlen a shown HX.
  destruct (lex_all tokens _ input EL) as (lv & ac & ts & r & i & HT & _ & _ & Hrun & _ & _ & _ & Hs & _).
  assert (Hts : forall p j u, In (p, j, u) ts -> exists td h, nth_error tokens j = Some (td, h) /\ Lang h u).
  { intros p j u Hx. destruct (tokenize_longest _ _ _ _ _ _ HT p j u Hx) as (a0 & b & _ & _ & (_ & Hau & _)).
    apply Hs in Hau as (h & Hj & HLg). rewrite nth_error_map in Hj. destruct (nth_error tokens j) as [[td h']|]; [|discriminate]. injection Hj as <-. eauto. }
  destruct (H V size code has_type regex_holds chars input Hfit Hown Hin Hlen ts i Hrun Hts) as [[_ Hx]|(_ & us & w & Y & Hsame & Hwl & Hus & Hend & HY & Hag)];
    clear H; rewrite HX in *; [discriminate|].
  injection HY as <-. destruct Hag as (j & k & -> & Hjk & (Hjw & trs & Hok & Hsy & Hden) & _ & Hvia & Hfol).
  pose proof (tokenize_layout _ _ _ _ _ _ HT) as Hlay.
  destruct (toks_of parse g tokens ts us Et Hq) as (toks & Em & Htoks & Hcar); auto.
  apply Forall2_app_inv_l in Hus as (w1 & w2 & Hus & Hus2 & Ew). inversion Hus2 as [|? ? ? ? _ Hnil]; subst. inversion Hnil; subst.
  apply app_inj_tail in Ew as [<- _]. clear Hus2 Hnil.
  pose proof (numbers_symbols parse g toks us w Hk Htoks Hcar Hus) as Hws.
  pose proof (symbols_length _ _ _ Hws) as Hwt. assert (Htl : length (toks_syms toks) = length toks) by apply map_length.
  assert (Hul : length us = length w) by (clear -Hus; induction Hus; cbn [length]; congruence).
  rewrite firstn_app in Hden. replace (j - length us) with 0 in Hden by lia. cbn [firstn] in Hden. rewrite app_nil_r in Hden.
  pose proof (symbols_firstn g w _ j Hws) as Hwj.
  assert (Hterm : terminals (toks_syms toks)).
  { unfold toks_syms, terminals. rewrite Forall_map, Forall_forall. intros [[p x] u] Hx. cbn [fst snd]. destruct (Htoks _ _ _ Hx) as [Hl' _].
    apply filter_In in Hl' as [_ Hl']. destruct x; try discriminate; intros n' E; discriminate. }
  exists toks, r, us, j, trs. split; [split; [unfold toks_texts; rewrite Em; exact Hlay|exact Htoks]|]. split; auto. split; [lia|]. split; auto.
  split; [symmetry; eapply symbols_fun; eauto|]. split; auto. split.
  - intros Hp. destruct (Hvia Hp) as (v & ll & Hl1 & Hl2 & Hl3).
    assert (exists z, ll = firstn j (toks_syms toks) ++ z) as [z ->].
    { unfold symbols in Hl1, Hwj. rewrite map_app in Hl1. rewrite Hwj in Hl1. exists (skipn j ll).
      rewrite <- (firstn_skipn j ll) at 1. f_equal. apply (f_equal (firstn (length (firstn j (toks_syms toks))))) in Hl1.
      rewrite firstn_app, <- (map_length (@Some sym)), firstn_all, Nat.sub_diag, app_nil_r, map_length, firstn_map, firstn_length_le in Hl1 by lia.
      clear -Hl1. revert Hl1. generalize (firstn j (toks_syms toks)) (firstn j ll). intros l1. induction l1 as [|x l1 IH]; intros [|y l2] E; try discriminate; auto.
      injection E as -> E. f_equal. auto. }
    exists z. split; auto. unfold terminals in *. apply Forall_app in Hl2. tauto.
  - destruct (nth_error (toks_syms toks) j) as [x|] eqn:Ex.
    + assert (Hlt : j < length w) by (rewrite Hwt; apply nth_error_Some; congruence).
      rewrite nth_error_app1 in Hjk by auto.
      assert (Hgx : get_token g k = Some x).
      { pose proof (map_nth_error (get_token g) _ _ Hjk) as Ha. pose proof Hws as Hws'. unfold symbols in Hws'.
        change (map (get_token g) w = map Some (toks_syms toks)) in Hws'. rewrite Hws', nth_error_map, Ex in Ha. cbn in Ha. congruence. }
      rewrite Nat2N.id. split; auto. intros Hcl (z & Hz & Hd). apply (Hfol Hcl).
      assert (Hk0 : k <> 0). { intros ->. destruct Hend as [_ He]. apply He. eapply nth_error_In, Hjk. }
      unfold can_follow. apply Nat.eqb_neq in Hk0. rewrite Hk0.
      assert (Htf : terminals (firstn j (toks_syms toks) ++ x :: z)).
      { apply Forall_app. split; [|constructor; auto].
        - unfold terminals in Hterm. rewrite <- (firstn_skipn j (toks_syms toks)) in Hterm. apply Forall_app in Hterm. tauto.
        - unfold terminals in Hterm. rewrite Forall_forall in Hterm. apply Hterm. eapply nth_error_In, Ex. }
      pose proof (derives_known _ _ _ _ Hg Hd Htf) as Hkn. apply Forall_app in Hkn as [_ Hkn]. inversion Hkn as [|? ? _ Hkz]; subst.
      destruct (known_numbers _ _ Hkz) as [wz Hwz]. exists wz, (firstn j (toks_syms toks) ++ x :: z). split; auto.
      rewrite <- app_assoc. apply symbols_app; auto. cbn [app]. unfold symbols in *. cbn [map]. f_equal; auto.
    + assert (Hle : length w <= j) by (rewrite Hwt; apply nth_error_None; auto). assert (j = length w) as -> by lia.
      rewrite nth_error_app2, Nat.sub_diag in Hjk by lia. injection Hjk as <-. split; auto. intros Hcl Hd. apply (Hfol Hcl).
      unfold can_follow. cbn [Nat.eqb]. exists (toks_syms toks). rewrite firstn_all. split; auto.
Qed.
Print Assumptions C68_text_partial.

(** The committed grammar file meets the hypotheses; its symbols derive something and its tables
    miss no transition.  In "(add ())" the first closing parenthesis is wrong, and what is before
    it is shown, "add" as an expression.  With a type that no expression has, the rule for "add" is
    shown to fail. *)
Example C68_nonvacuous :
  exists g l c, file_says lisp_text lisp_ast /\ grammar_from_ast lisp_ast = Ok g /\ lalr_new lisp_regex ehash g = Ok l /\
  quotes_ok g /\ codes_ok lisp_ast /\ kinds_distinct g /\ (forall s, named lisp_ast (IStr s) -> unq 39 s = Some s) /\ fits 200 (l_lexer l) /\ own_codes abc /\
  all_productive g /\ closed g (l_tables l) /\ lex_ctx_new (l_lexer l) = Ok c /\
  (exists k q1 q2, get_token g (N.to_nat k) = Some (Grammar.SStr (tx ")")) /\
   ts_pipeline 200 abc (tables_of c) (the_tables g (l_tables l)) (EmitProduction nat 200 lisp_ast count (fun _ _ => true) (fun _ => true)) (tx "(add ())") =
    Some (PInvalid k [SymTok (TTok (tx "(") (Some (TLit (tx "(")))) q1; SymNon (tx "Expr") 1; SymTok (TTok (tx "(") (Some (TLit (tx "(")))) q2])) /\
  (exists q k q1 q2, get_token g (N.to_nat k) = Some (Grammar.SStr (tx "(")) /\
   ts_pipeline 200 abc (tables_of c) (the_tables g (l_tables l)) (EmitProduction nat 200 lisp_ast count (fun n _ => negb (eqb n (tx "Expr"))) (fun _ => true)) (tx "(add ())") =
    Some (PAction q k [SymTok (TTok (tx "add") (Some (TLit (tx "add")))) q1; SymTok (TTok (tx "(") (Some (TLit (tx "(")))) q2])).
Proof.
  destruct C57_nonvacuous as (g & l & c & st & hs & Hfs & Eg & Hst & El & Hq & Hc & Hk & Hlit & Hfit & Hown & _ & _ & _ & Hcl & Hwt & EC & _).
  exists g, l, c. do 9 (split; auto). split; [|split; [auto|split; [auto|]]]; clear - Eg El EC.
  - vm_compute in Eg. injection Eg as <-. set (add := Node 5 [Leaf (Grammar.SStr (tx "add"))]). set (adds := Node 3 [add]).
    apply (PropsReport.productive_b_ok _ [add; adds; Node 1 [Leaf (Grammar.SStr (tx "(")); adds; Leaf (Grammar.SStr (tx ")"))]]). vm_compute. reflexivity.
  - vm_compute in Eg. injection Eg as <-. vm_compute in El. injection El as <-. vm_compute in EC. injection EC as <-. split.
    + match goal with |- exists k q1 q2, _ /\ ?X = _ => let v := eval vm_compute in X in
        match v with Some (PInvalid ?k [SymTok _ ?q1; _; SymTok _ ?q2]) => exists k, q1, q2 end end. split; vm_compute; reflexivity.
    + match goal with |- exists q k q1 q2, _ /\ ?X = _ => let v := eval vm_compute in X in
        match v with Some (PAction ?q ?k [SymTok _ ?q1; SymTok _ ?q2]) => exists q, k, q1, q2 end end. split; vm_compute; reflexivity.
Qed.

(** ** Where it is false *)

(** S -> "a" B | "c"; B -> "b" B: of "a c" the "c" is rejected and "a" is shown, though no sentence
    begins with "a". *)
Definition dead : list aprod := [one "S" [[IStr (tx "a"); INon (tx "B")]; [IStr (tx "c")]] true; one "B" [[IStr (tx "b"); INon (tx "B")]] false].
Theorem C68_late_refuted :
  forall L, exists ast g t st text P us tokens w, file_ast ast /\ grammar_from_ast ast = Ok g /\ find ap_start ast = Some st /\ make_tables ehash g = Ok t /\ closed g t /\
  parse_generate ast (Lalr g L t) = Ok text /\ ReadParse text P /\ Forall2 (is_token g) us tokens /\ ParseSpec.ended tokens w /\
  forall size, 50 <= size -> exists i k l, nth_error tokens i = Some k /\ shows unit g (fun _ _ => tt) us w i l /\
    Parse unit size P (EmitProduction unit size ast (fun _ _ => tt) (fun _ _ => true) (fun _ => true)) us = PInvalid (N.of_nat k) l /\
    ~ viable_prefix g (ap_name st) (firstn i w).
Proof.
  intros L. destruct (grammar_from_ast dead) as [g| |] eqn:Eg; [|vm_compute in Eg; discriminate Eg..].
  destruct (make_tables ehash g) as [t| |] eqn:Et; [|vm_compute in Eg; injection Eg as <-; vm_compute in Et; discriminate Et..].
  assert (Hf : file_ast dead) by (apply file_ast_b_ok; vm_compute; reflexivity).
  assert (Hq : quotes_ok g) by (apply quotes_b_ok; vm_compute in Eg; injection Eg as <-; vm_compute; reflexivity).
  assert (Hc : codes_ok dead) by (apply codes_b_ok; vm_compute; reflexivity).
  assert (Hk : kinds_distinct g) by (apply kinds_b_ok; vm_compute in Eg; injection Eg as <-; vm_compute; reflexivity).
  destruct (find ap_start dead) as [st|] eqn:Es; [|vm_compute in Es; discriminate Es].
  destruct (C47_tables_partial ehash dead g t L Hf Eg Et Hq Hc Hk) as (text & P & E & HR & _ & TG).
  set (ta := TTok (tx "a") (Some (TLit (tx "a")))). set (tc := TTok (tx "c") (Some (TLit (tx "c")))).
  assert (Hus : Forall2 (is_token g) [ta; tc; EOF] [1; 3; 0]).
  { clear - Eg. vm_compute in Eg. injection Eg as <-. repeat (constructor; [do 3 eexists; split; [reflexivity|split; reflexivity]|]). constructor. }
  assert (Hend : ParseSpec.ended [1; 3; 0] [1; 3]) by (split; [reflexivity|simpl; intuition discriminate]).
  exists dead, g, t, st, text, P, [ta; tc; EOF], [1; 3; 0], [1; 3]. do 4 (split; auto). split.
  { clear - Eg Et. vm_compute in Eg. injection Eg as <-. vm_compute in Et. injection Et as <-. apply ParseCheck.closed_b_ok. vm_compute. reflexivity. }
  do 4 (split; auto). intros size Hs.
  destruct (file_plain _ _ Hf Eg) as [[He Heof] Hfr]. destruct (grammar_from_ast_ok _ _ Eg) as (st' & Hst' & W & Est & _).
  assert (st' = st) by congruence. subst st'. pose proof (tables_auto g (ap_name st) W Est ehash t Et) as A.
  destruct HR as (b & _ & _ & _ & _ & N1 & _ & N2 & N3 & _ & N4 & N5 & _ & N6).
  pose proof (sim_result dead g (ap_name st) t P Eg W A Heof Hfr TG N1 N2 N3 N4 N5 N6 unit size (fun _ _ => tt) (fun _ _ => true) (fun _ => true) Hs _ _ _ Hus Hend 1 eq_refl) as H.
  set (X := Parse unit size P _ _) in *. clearbody X. clear - Eg Et Es H.
  assert (exists c1, parse_step g t [1; 3; 0] (parse_init 1) = inl c1 /\ ps_i c1 = 1 /\ ps_a c1 = 3 /\ ps_trace c1 = [] /\ parse_step g t [1; 3; 0] c1 = inr (Panic PInvalidToken)) as (c1 & E1 & Ei & Ea & Etr & E2).
  { clear - Eg Et. vm_compute in Eg. injection Eg as <-. vm_compute in Et. injection Et as <-. eexists. split; [vm_compute; reflexivity|]. repeat split; vm_compute; reflexivity. }
  assert (Hone : forall m c' , nsteps (parse_step g t [1; 3; 0]) m (parse_init 1) c' -> (m = 0 /\ c' = parse_init 1) \/ (m = 1 /\ c' = c1)).
  { intros m c' Hn. inversion Hn as [|m1 ? c2 ? F1 Hn1]; subst; auto. rewrite E1 in F1. injection F1 as <-. right.
    inversion Hn1 as [|m2 ? c3 ? F2 Hn2]; subst; auto. rewrite E2 in F2. discriminate. }
  destruct H as [c' Hn HX|m c' ts syms r Hm Hn R Er Hc|m c' c2 ts syms q s p Hm Hn R Es0 F2 Ft Hcf HX].
  - exfalso. apply Hone in Hn as [[? _]|[? _]]; discriminate.
  - apply Hone in Hn as [[-> ->]|[-> ->]]; [rewrite E1 in Er; discriminate|]. rewrite E2 in Er. injection Er as <-.
    destruct Hc as [[? _]|[[_ HX]|[? _]]]; try discriminate. exists 1, 3, syms. split; auto. split; [apply rel_shows in R; rewrite Ei in R; exact R|].
    split; [rewrite HX, Ea; reflexivity|]. clear - Eg Es. vm_compute in Es. injection Es as <-. vm_compute in Eg. injection Eg as <-. cbn [ap_name firstn].
    match goal with |- ~ viable_prefix ?g0 _ _ => set (g := g0) end.
    assert (HB : forall tr, tree_ok g tr -> root g tr <> Some (SNon [66%N])).
    { induction tr as [x|p ts IH] using tree_ind'; intros Ho Hr.
      - apply tree_ok_leaf in Ho. injection Hr as ->. eapply Ho. reflexivity.
      - apply tree_ok_node in Ho as (pr & Hp & Hts & Hm). cbn [root] in Hr. rewrite Hp in Hr. injection Hr as Hn.
        apply nth_error_In in Hp. simpl in Hp. destruct Hp as [<-|[<-|[<-|[<-|[]]]]]; try discriminate Hn.
        cbn [p_syms map] in Hm. destruct ts as [|t1 [|t2 [|? ?]]]; try discriminate. injection Hm as _ Hm.
        inversion IH as [|? ? _ IH']; subst. inversion IH' as [|? ? IH2 _]; subst. inversion Hts as [|? ? _ Hts']; subst. inversion Hts' as [|? ? Hts2 _]; subst.
        exact (IH2 Hts2 Hm). }
    intros (v & l & Hl & Htl & Hd). destruct (derives_tree g _ _ Hd Htl) as (tr & Ho & Hr & Hy). subst l.
    destruct tr as [x|p ts0]; [apply tree_ok_leaf in Ho; injection Hr as ->; eapply Ho; reflexivity|].
    apply tree_ok_node in Ho as (pr & Hp & Hts & Hm). cbn [root] in Hr. rewrite Hp in Hr. injection Hr as Hn.
    apply nth_error_In in Hp. simpl in Hp. destruct Hp as [<-|[<-|[<-|[<-|[]]]]]; try discriminate Hn; cbn [p_syms map] in Hm.
    + destruct ts0 as [|t1 [|t2 [|? ?]]]; try discriminate. injection Hm as _ Hm. inversion Hts as [|? ? _ Hts']; subst. inversion Hts' as [|? ? Hts2 _]; subst.
      exact (HB t2 Hts2 Hm).
    + destruct ts0 as [|t1 [|? ?]]; try discriminate. injection Hm as Hm. inversion Hts as [|? ? Ht1 _]; subst.
      destruct t1 as [x|p' ts']; simpl in Hm; [|destruct (nth_error _ p') in Hm; discriminate]. injection Hm as ->.
      unfold symbols in Hl. simpl in Hl. discriminate Hl.
  - exfalso. apply Hone in Hn as [[-> ->]|[-> ->]]; [|congruence]. rewrite E1 in F2. injection F2 as <-. rewrite Etr in Ft. destruct (ps_trace (parse_init 1)); discriminate.
Qed.
Print Assumptions C68_late_refuted.
