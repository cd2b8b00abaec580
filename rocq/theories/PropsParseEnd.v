(** Property C82: how parsing a text ends. *)
From Coq Require Import String.
From Verif Require Import Base Text Regex Nfa NfaProofs Dfa Lex LexSpec LexNfa LexProofs Grammar GrammarSpec GrammarProofs First Item ItemSpec ItemProofs ItemPlain
  GrammarCheck Table TableSpec MergeProofs TableProofs TableFacts LexGrammar LexGrammarProofs Parse ParseSpec ParseCheck TreeFacts Auto ParseProofs ParseTerm ParseCycle ParseComplete
  Report ReportSpec ReportProofs ReportExact Lalr EndSpec EndProofs Utf8Spec Utf8Proofs GrammarFile GrammarFileSpec Witness
  PropsLex PropsGrammar PropsTable PropsParse PropsReport PropsEnd PropsGrammarFile Lisp PropsOutcome.
Local Open Scope list_scope.

(** ** Specification *)

(** A literal whose text is also that of a regex is taken for the regex (C16). *)
Definition taken_for (g : grammar) (x y : sym) : Prop :=
  (exists s, x = SStr s /\ In (SReg s) (g_tokens g) /\ y = SReg s) \/
  ((forall s, x = SStr s -> ~ In (SReg s) (g_tokens g)) /\ y = x).
(** A rule that can be used mentions a name that derives itself. *)
Definition uses_cycle (g : grammar) : Prop := exists p pr A, reachable g p /\ nth_error (g_prods g) p = Some pr /\ In (SNon A) (p_syms pr) /\
  exists v, derives1 g [SNon A] v /\ derives g v [SNon A].

(** What the outcome [r] says of the tokens [w] (without EOF): the reductions of a tree of [w] the tables
    have the transitions of; a wrong token, if no transition is missing, and the report is at the
    first; a missing transition; or a missing transition and a name that derives itself. *)
Definition outcome (g : grammar) (t : tables) (start : str) (w : list nat) (r : res (list nat)) : Prop :=
  match r with
  | Ok ps => exists tr j, parse_tree g start w tr /\ moves g t 0 tr j /\ ps = postorder tr
  | Panic PInvalidToken => (closed g t -> ~ sentence g start w) /\
      exists r, parse_report g t (w ++ [0]) = Some r /\ rp_pos r <= length w /\ nth_error (w ++ [0]) (rp_pos r) = Some (rp_token r) /\
        (all_productive g -> viable_prefix g start (firstn (rp_pos r) w)) /\
        (closed g t -> ~ can_follow g start (firstn (rp_pos r) w) (rp_token r))
  | Panic PGotoEmpty => ~ closed g t
  | Panic _ => False
  | Diverge => ~ closed g t /\ uses_cycle g /\ exists a, nth_error (w ++ [0]) 0 = Some a /\ forever g t (w ++ [0]) (parse_init a)
  end.

(** How texts are split into symbols of the grammar: a text accepted is a text of the symbol; when the
    pieces refine the ranges (C15) the texts accepted are all the texts of symbols, with the first symbol
    that has it, and the texts carried on with all their beginnings. *)
Definition splits (parse : str -> option hir) (g : grammar) (live : list N -> Prop) (acc : list N -> nat -> Prop) : Prop :=
  (forall w i, acc w i -> exists x, nth_error (lex_syms g) i = Some x /\ sym_lang parse x w) /\
  (forall w i j, acc w i -> acc w j -> i = j) /\
  (forall hs, Forall2 (fun x h => sym_hir parse x = Some h) (lex_syms g) hs -> split_refines hs ->
     (forall w i, w <> [] -> (acc w i <-> is_sym parse g w i)) /\
     (Forall productive hs -> forall w, w <> [] -> (live w <-> begins parse g w))).

(** ** Proofs *)

Section Taken.
  Variable parse : str -> option hir.
  Variable hash : list item -> N.
  Variables (ast : list aprod) (g : grammar) (l : lalr).
  Hypothesis Hg : grammar_from_ast ast = Ok g.
  Hypothesis Hl : lalr_new parse hash g = Ok l.
  Variable tokens : list (token_def * hir).
  Hypothesis Et : grammar_tokens parse g = Ok tokens.

  Lemma sreg_dec s : In (SReg s) (g_tokens g) \/ ~ In (SReg s) (g_tokens g).
  Proof. destruct (existsb (eqb (SReg s)) (g_tokens g)) eqn:E.
    - left. apply existsb_exists in E as (x & Hx & E). apply eqb_eq in E. subst. exact Hx.
    - right. intros H. assert (existsb (eqb (SReg s)) (g_tokens g) = true); [|congruence]. apply existsb_exists. exists (SReg s). split; [exact H|apply eqb_eq; reflexivity].
  Qed.

  Lemma convert_taken input ts out : mapM (LexProofs.token_of tokens input) ts = Ok out ->
    exists conv, convert_tokens (l_lexer l) out = Ok (conv ++ [(Token eof_name None, 0)]) /\
      Forall2 (fun x c => exists y z, nth_error (lex_syms g) (snd (fst x)) = Some y /\ taken_for g y z /\ get_token g (snd c) = Some z) ts conv.
  Proof using Hg Hl Et.
    destruct (new_parts _ _ _ _ Hl) as (_ & HL & _). destruct (from_grammar_inv _ _ _ HL) as (tokens' & Et' & EL).
    rewrite Et in Et'. injection Et' as <-. set (L := l_lexer l) in *.
    pose proof (def_map_grammar _ _ _ _ _ Hg Et EL) as Hm.
    intros Hout. apply mapM_Forall2 in Hout.
    assert (G : exists conv, mapM (token_with_idx (def_map L)) out = Ok conv /\
        Forall2 (fun x c => exists y z, nth_error (lex_syms g) (snd (fst x)) = Some y /\ taken_for g y z /\ get_token g (snd c) = Some z) ts conv).
    { induction Hout as [|x tk ts out Hx HF IH].
      - exists []. split; [reflexivity|constructor].
      - destruct IH as (conv & E1 & E3).
        destruct (token_of_name _ _ _ _ Hx) as (td & h & Hnth & Hname).
        destruct x as [[p i] u]. simpl in Hnth.
        destruct (def_sym _ _ _ Et _ _ _ Hnth) as (k & y & Hy & Hkd & Hgk & Hsy).
        pose proof (nth_error_In _ _ Hnth) as Hi.
        apply (grammar_tokens_spec _ _ _ Et) in Hi as (k0 & y0 & n & Hk & Hy0 & -> & _). simpl in Hname, Hkd. injection Hkd as ->.
        assert (y0 = y) as -> by (unfold get_token in *; congruence).
        destruct (Hm n) as [Hd _].
        destruct Hd as (k' & Ek & Hk').
        { apply nth_error_In in Hk. destruct y; try discriminate; injection Hy0 as ->; auto. }
        exists ((tk, k') :: conv). cbn [mapM]. rewrite <- Hname in Ek. rewrite (token_with_idx_some _ _ _ Ek). cbn [bind].
        rewrite E1. cbn [bind]. split; [reflexivity|].
        constructor; [|exact E3]. exists y. cbn [fst snd].
        destruct y as [s|s|s| |]; try discriminate Hy0; injection Hy0 as ->.
        + destruct (sreg_dec n) as [Hr|Hr].
          * exists (SReg n). split; auto. split; [left; exists n; auto|]. destruct Hk' as [Hk'|[_ Hk']]; [exact Hk'|contradiction].
          * exists (SStr n). split; auto. split; [right; split; [intros s E; injection E as <-; exact Hr|reflexivity]|].
            destruct Hk' as [Hk'|[Hk' _]]; [exfalso; apply Hr; eauto using nth_error_In|exact Hk'].
        + exists (SReg n). split; auto. split; [right; split; [discriminate|reflexivity]|].
          destruct Hk' as [Hk'|[_ Hk']]; [exact Hk'|exfalso; apply Hk'; eauto using nth_error_In]. }
    destruct G as (conv & E1 & E3). exists conv. unfold convert_tokens. rewrite E1. simpl. auto.
  Qed.

  Lemma parse_taken input ts out : lex (l_lexer l) input = mapM (LexProofs.token_of tokens input) ts -> lex (l_lexer l) input = Ok out ->
    exists syms w, Forall2 (fun x z => exists y, nth_error (lex_syms g) (snd (fst x)) = Some y /\ taken_for g y z) ts syms /\
      symbols g w syms /\ ended (w ++ [0]) w /\ terminals syms /\
      lalr_parse l input = parse_impl g (l_tables l) (w ++ [0]).
  Proof using Hg Hl Et.
    intros El Ep. destruct (new_parts _ _ _ _ Hl) as (Egl & _ & _).
    destruct (convert_taken input ts _ (eq_trans (eq_sym El) Ep)) as (conv & Ec & HF).
    assert (H : exists syms, Forall2 (fun x z => exists y, nth_error (lex_syms g) (snd (fst x)) = Some y /\ taken_for g y z) ts syms /\
              symbols g (map snd conv) syms /\ ~ In 0 (map snd conv) /\ terminals syms).
    { clear El Ep Ec. induction HF as [|x c ts conv (y & z & Hn & Ht & Hz) _ (syms & H1 & H2 & H3 & H4)].
      - exists []. split; [constructor|]. split; [reflexivity|]. split; [intros []|constructor].
      - assert (Hy : lexical y = true) by (apply nth_error_In in Hn; unfold lex_syms in Hn; apply filter_In in Hn; apply Hn).
        assert (Hlz : lexical z = true).
        { destruct Ht as [(s & -> & _ & ->)|[_ ->]]; [reflexivity|exact Hy]. }
        exists (z :: syms). split; [constructor; eauto|]. split; [|split].
        + unfold symbols in *. simpl. f_equal; auto.
        + intros [E|Hx]; [|exact (H3 Hx)]. rewrite E in Hz. destruct (token_table _ _ Hg) as (H0 & _).
          rewrite H0 in Hz. injection Hz as <-. discriminate.
        + constructor; auto. intros n ->. discriminate. }
    destruct H as (syms & H1 & H2 & H3 & H4). exists syms, (map snd conv).
    split; auto. split; auto. split; [split; auto|]. split; auto. unfold lalr_parse. rewrite Ep. cbn [bind]. rewrite Ec. cbn [bind].
    rewrite Egl, map_app. reflexivity.
  Qed.
End Taken.

(** ** C82 *)

(** How parsing ends, on tokens. *)
Theorem C82_tokens_end :
  forall ast g st, file_ast ast -> grammar_from_ast ast = Ok g -> find ap_start ast = Some st ->
  forall hash t, make_tables hash g = Ok t -> forall w, ~ In 0 w ->
  outcome g t (ap_name st) w (parse_impl g t (w ++ [0])).
Proof.
  intros ast g s Hf Hg Hs hash t Ht w Hw. assert (Hend : ended (w ++ [0]) w) by (split; auto). set (tokens := w ++ [0]) in *. unfold outcome. fold tokens. destruct (file_plain _ _ Hf Hg) as [Hp Hfr].
  assert (Hne : tokens <> []) by (unfold tokens; destruct w; discriminate).
  destruct (parse_impl g t tokens) as [ps|pn|] eqn:E.
  - exact (proj1 (C30_accepts_iff _ _ _ Hg Hs Hp Hfr _ _ Ht _ _ _ Hend) E).
  - destruct (C32_failures _ _ Hg _ _ Ht _ _ Hne E) as [-> | ->].
    + split.
      { intros Hcl. apply (proj2 (C30_accepts_exactly_the_sentences_partial _ _ _ Hg Hs Hp Hfr _ _ Ht Hcl _ _ Hend)), E. }
      destruct (proj2 (C55_reported g t tokens) E) as [r Hr]. exists r. split; auto.
      exact (C55_first_wrong_partial _ _ _ Hg Hs Hp Hfr _ _ Ht _ _ _ Hend Hr).
    + intros Hcl. pose proof (C32_only_wrong_tokens_partial _ _ Hg Hfr _ _ Ht Hcl _ _ Hne E). discriminate.
  - split; [|split].
    + intros Hcl. destruct (C31_terminates_partial _ _ Hg Hp Hfr _ _ Ht Hcl _ _ Hend) as (a & n & c & Ha & Hn & Ec).
      destruct (C31_diverge_exact _ _ Hg Hp _ _ Ht _ _ Hend) as (a' & Ha' & HD & _). rewrite Ha in Ha'. injection Ha' as <-.
      eapply forever_no_end; [apply HD, E|exact Hn|exact Ec].
    + destruct (grammar_from_ast_ok _ _ Hg) as (s' & _ & W & Hst & _). destruct Hp as [He Heof].
      destruct (parse_ends g _ W t (tables_auto g _ W Hst hash t Ht) He tokens w Hend Heof) as (a & Ea & [[_ Hc]|(m & c & r & Hm & Er & E')]).
      * destruct Hc as (n & s1 & i & a1 & tr & q0 & j & ps & ts & _ & _ & Hn & Hu).
        destruct (cycle_cyclic g _ W Hst hash t Ht _ _ _ _ Hu Hn) as (A & HA & q & k & Hq & pr & Hpr & Hx).
        destruct (make_tables_built _ _ _ _ W Ht) as (lr0 & m & B). destruct (st_lr g _ W hash t _ _ _ _ _ _ B Hq) as (I & HI & Hk & _).
        exists q, pr, A. exact (conj (lr_reachable g _ HI _ _ _ Hk) (conj Hpr (conj (nth_error_In _ _ Hx) HA))).
      * exfalso. destruct (C31_diverge_exact _ _ Hg (conj He Heof) _ _ Ht _ _ Hend) as (a' & Ha' & HD & _). rewrite Ea in Ha'. injection Ha' as <-.
        eapply forever_no_end; [apply HD, E|exact Hm|exact Er].
    + destruct (C31_diverge_exact _ _ Hg Hp _ _ Ht _ _ Hend) as (a' & Ha' & HD & _). exists a'. split; auto. apply HD, E.
Qed.
Print Assumptions C82_tokens_end.

(** How parsing ends, on texts, for the parser of a grammar file. *)
Theorem C82_text_end :
  forall parse_regex hash text l, build parse_regex hash text = Ok l ->
  exists ast st live acc, file_says text ast /\ grammar_from_ast ast = Ok (l_grammar l) /\ find ap_start ast = Some st /\
  splits parse_regex (l_grammar l) live acc /\
  forall input, exists ts rest, Tokenize live acc 0 input ts rest /\
    ((~ sliced input (map drop_idx ts) /\ lalr_parse l input = Panic PSlice) \/
     (sliced input (map drop_idx ts) /\
      exists syms w, Forall2 (fun x z => exists y, nth_error (lex_syms (l_grammar l)) (snd (fst x)) = Some y /\ taken_for (l_grammar l) y z) ts syms /\
        symbols (l_grammar l) w syms /\ ~ In 0 w /\ outcome (l_grammar l) (l_tables l) (ap_name st) w (lalr_parse l input))).
Proof.
  intros parse hash text l Hb. unfold build in Hb. apply bind_ok in Hb as (ast & Ea & Hb). apply bind_ok in Hb as (g & Hg & Hl).
  destruct (C51_reading text) as [HR _]. pose proof (proj1 (HR ast) Ea) as Hsay. pose proof (C52_file_ast _ _ Ea) as Hf.
  destruct (new_parts _ _ _ _ Hl) as (Egl & HL & Ht). destruct (from_grammar_inv _ _ _ HL) as (tokens & Et & EL). rewrite Egl.
  destruct (grammar_from_ast_ok _ _ Hg) as (st & Hst & _).
  destruct (lex_tokens_live tokens _ EL) as (lv & ac & (_ & _ & Hdet) & Hs & Hlex & _ & _ & Hex).
  exists ast, st, lv, ac. split; auto. split; auto. split; auto.
  assert (Hac : forall w i, ac w i -> exists x, nth_error (lex_syms g) i = Some x /\ sym_lang parse x w).
  { intros w i H. apply Hs in H as (h & Hh & HLg). rewrite nth_error_map in Hh. destruct (nth_error tokens i) as [[td h']|] eqn:E; [|discriminate].
    injection Hh as ->. destruct (def_sym _ _ _ Et _ _ _ E) as (k & y & Hy & _ & _ & Hy'). exists y. split; auto. apply (sym_hir_lang _ _ _ Hy'), HLg. }
  split.
  { split; [exact Hac|]. split; [exact Hdet|]. intros hs Hhs Hsr.
    assert (hs = map snd tokens) as ->.
    { pose proof (defs_aligned _ _ _ _ Et) as HD. unfold lex_syms in Hhs. revert HD Hhs. generalize (filter lexical (g_tokens g)) as ys.
      clear. intros ys HD. revert hs. induction HD as [|y th ys ths (Hy & _) _ IH]; intros hs H; inversion H; subst; auto.
      simpl. f_equal; [congruence|auto]. }
    destruct (Hex Hsr) as [H1 H2]. split.
    - intros w i Hw. rewrite (H1 w i Hw). apply first_is_sym, Et.
    - intros Hp w Hw. rewrite Forall_forall in Hp. rewrite (H2 Hp w Hw). apply begins_viable, Et. }
  intros input. destruct (Hlex input) as (ts & r & i & HT & El & _). exists ts, r. split; auto.
  assert (Hts : forall p j u, In (p, j, u) ts -> exists td h, nth_error tokens j = Some (td, h)).
  { intros p j u Hin. destruct (tokenize_longest _ _ _ _ _ _ HT p j u Hin) as (a & b & _ & _ & (_ & H2 & _)).
    apply Hs in H2 as (h & Hh & _). rewrite nth_error_map in Hh. destruct (nth_error tokens j) as [[td h']|]; [eauto|discriminate]. }
  destruct (slice_all tokens input ts (with_values _ _ _ Et) Hts) as [[Hsl [out Eo]]|[Hsl Eo]].
  2: { left. rewrite Eo in El. unfold lalr_parse. rewrite El. auto. }
  right. split; auto.
  destruct (parse_taken _ _ _ _ _ Hg Hl tokens Et input ts out El (eq_trans El Eo)) as (syms & w & HF & Hw & Hend & _ & Ep).
  exists syms, w. split; auto. split; auto. split; [apply Hend|]. rewrite Ep.
  exact (C82_tokens_end _ _ _ Hf Hg Hst _ _ Ht w (proj2 Hend)).
Qed.
Print Assumptions C82_text_end.

(** When no transition is missing, for a text with characters of one byte: it is parsed when what is read of
    it is a sentence, otherwise its first wrong token is reported. *)
Theorem C82_closed_end :
  forall parse_regex hash text l, build parse_regex hash text = Ok l -> closed (l_grammar l) (l_tables l) ->
  exists ast st live acc, file_says text ast /\ grammar_from_ast ast = Ok (l_grammar l) /\ find ap_start ast = Some st /\
  splits parse_regex (l_grammar l) live acc /\
  forall input, ascii input -> exists ts rest syms w, Tokenize live acc 0 input ts rest /\
    Forall2 (fun x z => exists y, nth_error (lex_syms (l_grammar l)) (snd (fst x)) = Some y /\ taken_for (l_grammar l) y z) ts syms /\
    symbols (l_grammar l) w syms /\
    ((sentence (l_grammar l) (ap_name st) w /\ exists tr, parse_tree (l_grammar l) (ap_name st) w tr /\ lalr_parse l input = Ok (postorder tr)) \/
     (~ sentence (l_grammar l) (ap_name st) w /\ lalr_parse l input = Panic PInvalidToken)).
Proof.
  intros parse hash text l Hb Hcl. destruct (C82_text_end _ _ _ _ Hb) as (ast & st & lv & ac & Hsay & Hg & Hst & Hsp & H).
  exists ast, st, lv, ac. split; auto. split; auto. split; auto. split; auto. intros input Ha.
  destruct (H input) as (ts & rest & HT & [[Hn _]|(_ & syms & w & HF & Hw & H0 & Ho)]).
  { exfalso. apply Hn. eapply ascii_sliced; eauto. eapply tokenize_layout; eauto. }
  exists ts, rest, syms, w. split; auto. split; auto. split; auto. unfold outcome in Ho.
  destruct (lalr_parse l input) as [ps|[]|]; try contradiction; try tauto.
  - left. destruct Ho as (tr & j & Htr & _ & ->). split; [|exists tr; auto]. destruct Htr as (Ht & Hr & Hy).
    exists (yield tr). split; [exact Hy|]. split; [eapply tree_terminals; eauto|apply tree_derives; auto].
Qed.
Print Assumptions C82_closed_end.

(** Every outcome arises. *)
Definition file_w28 : str := lines [tx "export start S: (T) = ["; tx """u"" <x: A> ""p"" => (x),"; tx """v"" <x: A> ""q"" => (x),"; tx """w"" <x: B> ""r"" => (x)"; tx "]";
  tx "export A: (T) = ["; tx """c"" <x: D> => (x)"; tx "]"; tx "export B: (T) = ["; tx """f"" <x: D> => (x)"; tx "]"; tx "export D: (T) = ["; tx """d"" => (x)"; tx "]"].
Definition file_w32 : str := lines [tx "export start S: (T) = ["; tx """u"" <x: P> ""p"" => (x),"; tx """v"" <x: P> ""q"" => (x),"; tx """w"" <x: Q> ""r"" => (x)"; tx "]";
  tx "export P: (T) = ["; tx """c"" <x: A> => (x)"; tx "]"; tx "export Q: (T) = ["; tx """f"" <x: A> => (x)"; tx "]";
  tx "export A: (T) = ["; tx "<x: N> ""y"" => (x)"; tx "]"; tx "export N: (T) = ["; tx """n"" => (x)"; tx "]"].
Definition file_w31 : str := lines [tx "export start S: (T) = ["; tx """u"" <x: A> ""p"" => (x),"; tx """v"" <x: A> ""q"" => (x),"; tx """w"" <x: B> ""r"" => (x)"; tx "]";
  tx "export A: (T) = ["; tx "<x: X> <y: D> => (x)"; tx "]"; tx "export X: (T) = ["; tx """c"" => (x),"; tx "<x: Y> => (x)"; tx "]"; tx "export Y: (T) = ["; tx "<x: X> => (x)"; tx "]";
  tx "export B: (T) = ["; tx """f"" <x: D> => (x)"; tx "]"; tx "export D: (T) = ["; tx """d"" => (x)"; tx "]"].
Definition file_accent : str := lines [tx "export start S: (T) = ["; ([34; 233; 34]%N ++ tx " => (x)"); tx "]"].
Definition run_text (file input : str) : res (list nat) := let* l := build reg ehash file in lalr_parse l input.
Example C82_nonvacuous :
  run_text file_ok (tx " a ") = Ok [1] /\ run_text file_ok (tx "aa") = Panic PInvalidToken /\ run_text file_accent [233]%N = Panic PSlice /\
  run_text file_w28 (tx "ucdp") = Panic PInvalidToken /\ run_text file_w28 (tx "wfdr") = Ok [6; 5; 3] /\
  run_text file_w32 (tx "ucnyp") = Panic PGotoEmpty /\ run_text file_w31 (tx "ucdp") = Diverge /\
  exists l, build reg ehash file_ok = Ok l /\ closed (l_grammar l) (l_tables l).
Proof.
  do 7 (split; [vm_compute; reflexivity|]).
  destruct (build reg ehash file_ok) as [l| |] eqn:E; [|vm_compute in E; discriminate E..]. exists l. split; auto.
  vm_compute in E. injection E as <-. apply closed_b_ok. vm_compute. reflexivity.
Qed.
