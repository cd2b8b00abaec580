(** Proofs about the composition of lexer and parser. *)
From Verif Require Import Base Regex Nfa Dfa Lex LexSpec LexNfa LexProofs Grammar GrammarSpec GrammarProofs First Item ItemSpec Table
  LexGrammar LexGrammarProofs Parse ParseSpec Lalr EndSpec.

Lemma munch_ext live live' acc acc' : (forall w, live w <-> live' w) -> (forall w i, acc w i <-> acc' w i) ->
  forall pos s ts r, Munch live acc pos s ts r -> Munch live' acc' pos s ts r.
Proof.
  intros Hl Ha.
  assert (G : forall s, no_match acc s -> no_match acc' s).
  { intros s H u v i E Hu Hi. apply Ha in Hi. exact (H u v i E Hu Hi). }
  assert (K : forall c, skippable live c <-> skippable live' c).
  { intros c. unfold skippable. rewrite Hl. reflexivity. }
  intros pos s ts r H. induction H as [|pos u v i ts r (H1 & H2 & H3) _ IH|pos c v ts r H1 H3 _ IH|pos c v H1 H2].
  - constructor.
  - apply MTok; auto. split; auto. split; [apply Ha, H2|]. intros u' v' i' E H. apply Ha in H. eauto.
  - apply MSkip; auto. apply K, H1.
  - apply MStop; auto. rewrite <- K. exact H2.
Qed.
Lemma munch_in live acc pos s ts r : Munch live acc pos s ts r -> forall p i u, In (p, i, u) ts -> u <> [] /\ acc u i.
Proof.
  induction 1 as [|pos u v i ts r (H1 & H2 & _) _ IH|pos c v ts r _ _ _ IH|]; intros p' i' u' Hin.
  - destruct Hin.
  - destruct Hin as [E|Hin]; [injection E as <- <- <-; auto|eauto].
  - eauto.
  - destruct Hin.
Qed.

Section End_.
  Variables (parse : str -> option hir) (hash : list item -> N) (ast : list aprod) (g : grammar) (l : lalr).
  Hypothesis Hg : grammar_from_ast ast = Ok g.
  Hypothesis Hl : lalr_new parse hash g = Ok l.

  Lemma new_parts : l_grammar l = g /\ from_grammar parse g = Ok (l_lexer l) /\ make_tables hash g = Ok (l_tables l).
  Proof using Hl.
    unfold lalr_new in Hl. apply bind_ok in Hl as (L & EL & H). apply bind_ok in H as (t & Et & H). injection H as <-. auto.
  Qed.

  Lemma defs_aligned tl : forall k tokens, grammar_tokens_from parse k tl = Ok tokens ->
    Forall2 (fun y th => sym_hir parse y = Some (snd th) /\ exists j, td_idx (fst th) = Some (k + j) /\ nth_error tl j = Some y)
      (filter lexical tl) tokens.
  Proof.
    induction tl as [|x tl IH]; intros k tokens H; cbn [grammar_tokens_from] in H.
    - injection H as <-. constructor.
    - apply bind_ok in H as (o & Eo & H). apply bind_ok in H as (r & Er & H). injection H as <-.
      specialize (IH _ _ Er).
      assert (IH' : Forall2 (fun y th => sym_hir parse y = Some (snd th) /\ exists j, td_idx (fst th) = Some (k + j) /\ nth_error (x :: tl) j = Some y)
                (filter lexical tl) r).
      { clear Er. induction IH as [|y th ys ths (H1 & j & H2 & H3) _ IH2]; constructor; auto. split; auto.
        exists (S j). split; auto. rewrite H2. f_equal. lia. }
      destruct x; simpl in Eo; try (injection Eo as <-); simpl; auto.
      + constructor; auto. split; [reflexivity|]. exists 0. rewrite Nat.add_0_r. auto.
      + destruct (parse s) as [h|] eqn:Ep; [|discriminate]. injection Eo as <-. constructor; auto.
        split; [exact Ep|]. exists 0. rewrite Nat.add_0_r. auto.
  Qed.

  Lemma Forall2_nth {A B} (R : A -> B -> Prop) la lb : Forall2 R la lb -> forall i b, nth_error lb i = Some b ->
    exists a, nth_error la i = Some a /\ R a b.
  Proof. induction 1; intros [|i] b E; simpl in *; try discriminate; [injection E as <-; eauto|eauto]. Qed.
  Lemma Forall2_nth' {A B} (R : A -> B -> Prop) la lb : Forall2 R la lb -> forall i a, nth_error la i = Some a ->
    exists b, nth_error lb i = Some b /\ R a b.
  Proof. induction 1; intros [|i] a' E; simpl in *; try discriminate; [injection E as <-; eauto|eauto]. Qed.

  Lemma sym_hir_lang y h : sym_hir parse y = Some h -> forall w, Lang h w <-> sym_lang parse y w.
  Proof.
    destruct y; simpl; intros E w; try discriminate.
    - injection E as <-. apply lit_hir_lang.
    - split; [eauto|]. intros (h' & E' & HL). congruence.
  Qed.

  Section Tokens.
    Variable tokens : list (token_def * hir).
    Hypothesis Et : grammar_tokens parse g = Ok tokens.
    Hypothesis Hno : forall s, ~ (In (SStr s) (g_tokens g) /\ In (SReg s) (g_tokens g)).

    Lemma def_sym i td h : nth_error tokens i = Some (td, h) ->
      exists k y, nth_error (lex_syms g) i = Some y /\ td_idx td = Some k /\ get_token g k = Some y /\ sym_hir parse y = Some h.
    Proof using Et.
      intros H. destruct (Forall2_nth _ _ _ (defs_aligned _ _ _ Et) _ _ H) as (y & Hy & Hh & j & Hj & Hk).
      exists j, y. split; auto.
    Qed.

    Lemma begins_viable w : viable (map snd tokens) w <-> begins parse g w.
    Proof using Et.
      pose proof (defs_aligned _ _ _ Et) as HF. unfold begins. split.
      - intros (h & v & Hh & HL). apply in_map_iff in Hh as ([td h'] & <- & Hin). apply In_nth_error in Hin as [i Hi].
        destruct (def_sym i td h' Hi) as (k & y & Hy & _ & _ & Hs). exists y, v. split; [eauto using nth_error_In|].
        apply (sym_hir_lang _ _ Hs), HL.
      - intros (y & v & Hy & HL). apply In_nth_error in Hy as [i Hi].
        destruct (Forall2_nth' _ _ _ HF i y Hi) as ([td h] & Ht & Hs & _). exists h, v.
        split; [apply in_map_iff; exists (td, h); eauto using nth_error_In|]. apply (sym_hir_lang _ _ Hs), HL.
    Qed.
    Lemma first_is_sym w i : first_match (map snd tokens) w i <-> is_sym parse g w i.
    Proof using Et.
      pose proof (defs_aligned _ _ _ Et) as HF.
      assert (G : forall i, (exists h, nth_error (map snd tokens) i = Some h /\ Lang h w) <->
                  (exists x, nth_error (lex_syms g) i = Some x /\ sym_lang parse x w)).
      { intros j. split.
        - intros (h & Hh & HL). rewrite nth_error_map in Hh. destruct (nth_error tokens j) as [[td h']|] eqn:E; [|discriminate].
          injection Hh as <-. destruct (def_sym j td h' E) as (k & y & Hy & _ & _ & Hs). exists y. split; auto.
          apply (sym_hir_lang _ _ Hs), HL.
        - intros (y & Hy & HL). destruct (Forall2_nth' _ _ _ HF j y Hy) as ([td h] & Ht & Hs & _). exists h.
          split; [rewrite nth_error_map, Ht; reflexivity|]. apply (sym_hir_lang _ _ Hs), HL. }
      unfold first_match, is_sym. rewrite (G i). split; intros [H1 H2]; split; auto; intros j y Hj Hy HL.
      - destruct (proj2 (G j)) as (h & Hh & HL'); [eauto|]. exact (H2 j h Hj Hh HL').
      - destruct (proj1 (G j)) as (h & Hh & HL'); [eauto|]. exact (H2 j h Hj Hh HL').
    Qed.

    Lemma convert_own input ts out : mapM (token_of tokens input) ts = Ok out ->
      (forall p i u, In (p, i, u) ts -> exists td h, nth_error tokens i = Some (td, h)) ->
      exists conv, convert_tokens (l_lexer l) out = Ok (conv ++ [(Token eof_name None, 0)]) /\
        Forall2 (fun x c => exists td h, nth_error tokens (snd (fst x)) = Some (td, h) /\ td_idx td = Some (snd c)) ts conv.
    Proof using Hg Hl Et Hno.
      destruct new_parts as (_ & HL & _). destruct (from_grammar_inv _ _ _ HL) as (tokens' & Et' & EL).
      rewrite Et in Et'. injection Et' as <-. set (L := l_lexer l) in *.
      pose proof (def_map_grammar _ _ _ _ _ Hg Et EL) as Hm.
      destruct (token_table _ _ Hg) as (_ & _ & Huniq & _).
      intros Hout Hin. apply mapM_Forall2 in Hout.
      assert (G : exists conv, mapM (token_with_idx (def_map L)) out = Ok conv /\
          Forall2 (fun x c => exists td h, nth_error tokens (snd (fst x)) = Some (td, h) /\ td_idx td = Some (snd c)) ts conv).
      { induction Hout as [|x tk ts out Hx HF IH].
        - exists []. split; [reflexivity|constructor].
        - destruct IH as (conv & E1 & E3); [intros; eapply Hin; right; eassumption|].
          destruct (token_of_name _ _ _ _ Hx) as (td & h & Hnth & Hname).
          destruct x as [[p i] u]. simpl in Hnth.
          pose proof (nth_error_In _ _ Hnth) as Hi.
          apply (grammar_tokens_spec _ _ _ Et) in Hi as (k & y & n & Hk & Hy & -> & _). simpl in Hname.
          destruct (Hm n) as [Hd _].
          destruct Hd as (k' & Ek & Hk').
          { apply nth_error_In in Hk. destruct y; try discriminate; injection Hy as ->; auto. }
          assert (k' = k) as ->.
          { assert (H0 : forall j z, get_token g j = Some z -> z <> SEof -> 0 < j).
            { intros [|j] z Hz Hne; [|lia]. destruct (token_table _ _ Hg) as (H0 & _).
              rewrite H0 in Hz. congruence. }
            assert (Hky : get_token g k' = Some y).
            { destruct y; try discriminate; injection Hy as ->.
              - destruct Hk' as [Hk'|[Hk' _]]; auto. exfalso. apply (Hno n).
                split; eauto using nth_error_In.
              - destruct Hk' as [Hk'|[_ Hk']]; auto. exfalso. apply Hk'. eauto using nth_error_In. }
            assert (y <> SEof) by (intros ->; discriminate).
            eapply Huniq; eauto. }
          exists ((tk, k) :: conv). cbn [mapM]. rewrite <- Hname in Ek. rewrite (token_with_idx_some _ _ _ Ek). cbn [bind].
          rewrite E1. cbn [bind]. split; [reflexivity|].
          constructor; [|exact E3]. exists (TokenDef n true (Some k)), h. simpl. auto. }
      destruct G as (conv & E1 & E3). exists conv. unfold convert_tokens. rewrite E1. simpl. auto.
    Qed.

    (** The token sequence given to the parser. *)
    Lemma parse_tokens input ts out : lex (l_lexer l) input = mapM (token_of tokens input) ts -> lex (l_lexer l) input = Ok out ->
      (forall p i u, In (p, i, u) ts -> exists td h, nth_error tokens i = Some (td, h)) ->
      exists syms w, Forall2 (fun x s => nth_error (lex_syms g) (snd (fst x)) = Some s) ts syms /\
        symbols g w syms /\ ended (w ++ [0]) w /\ terminals syms /\
        lalr_parse l input = parse_impl g (l_tables l) (w ++ [0]).
    Proof using Hg Hl Et Hno.
      intros El Ep Hin. destruct new_parts as (Egl & _ & _).
      destruct (convert_own input ts _ (eq_trans (eq_sym El) Ep) Hin) as (conv & Ec & HF).
      assert (H : exists syms, Forall2 (fun x s => nth_error (lex_syms g) (snd (fst x)) = Some s) ts syms /\
                symbols g (map snd conv) syms /\ ~ In 0 (map snd conv) /\ terminals syms).
      { clear El Ep Ec Hin. induction HF as [|x c ts conv (td & h & Hn & Hd) _ (syms & H1 & H2 & H3 & H4)].
        - exists []. split; [constructor|]. split; [reflexivity|]. split; [intros []|constructor].
        - destruct (def_sym _ _ _ Hn) as (k & y & Hy & Hk & Hgk & Hs). rewrite Hd in Hk. injection Hk as <-.
          exists (y :: syms). split; [constructor; auto|]. split; [|split].
          + unfold symbols in *. simpl. f_equal; auto.
          + intros [E|Hx]; [|exact (H3 Hx)]. rewrite E in Hgk. destruct (token_table _ _ Hg) as (H0 & _).
            rewrite H0 in Hgk. injection Hgk as <-. discriminate.
          + constructor; auto. intros n ->. discriminate. }
      destruct H as (syms & H1 & H2 & H3 & H4). exists syms, (map snd conv).
      split; auto. split; auto. split; [split; auto|]. split; auto. unfold lalr_parse. rewrite Ep. cbn [bind]. rewrite Ec. cbn [bind].
      rewrite Egl, map_app. reflexivity.
    Qed.
  End Tokens.
End End_.

(** ** Grammar files *)

Lemma file_symbol_lower x : file_symbol x -> lower x <> SEps /\ lower x <> SEof /\ forall n, lower x = SNon n -> ident n.
Proof. destruct x; simpl; intros H; try contradiction; (split; [discriminate|split; [discriminate|]]); intros n E; inversion E; subst; auto. Qed.
Lemma file_named_lower x : file_named x -> lower x <> SEps /\ lower x <> SEof /\ forall n, lower x = SNon n -> ident n.
Proof.
  destruct x as [| [n|] ty | | | |]; simpl; intros H; try (apply (file_symbol_lower (IStr s)); exact H); try contradiction.
  - apply file_symbol_lower, H.
  - split; [discriminate|split; [discriminate|]]. intros n E. inversion E; subst; auto.
  - split; [discriminate|split; [discriminate|]]. intros n E. inversion E.
Qed.
Lemma ident_no_quote s : ident s -> forall s', s <> aug_name s'.
Proof.
  intros H s' ->. unfold aug_name in H. destruct s' as [|c s']; simpl in H; unfold ident_start, ident_rest in H.
  - destruct H as [H _]. unfold ident_start in H. lia.
  - destruct H as [_ H]. apply Forall_app in H as [_ H]. inversion H as [|? ? H1 _]; subst.
    unfold ident_start in H1. lia.
Qed.
Lemma file_plain ast g : file_ast ast -> grammar_from_ast ast = Ok g -> plain g /\ start_fresh g.
Proof.
  intros [_ Hf] Hg. destruct (grammar_from_ast_ok _ _ Hg) as (st & Hs & _ & Est & Ep).
  apply find_some in Hs as [Hs _]. destruct (Hf st Hs) as [Hid _].
  assert (H : forall p, In p (g_prods g) -> p_syms p <> [] /\
            forall x, In x (p_syms p) -> x <> SEps /\ x <> SEof /\ forall n, x = SNon n -> ident n).
  { intros p Hp. rewrite Ep in Hp. destruct Hp as [<-|Hp].
    - simpl. split; [discriminate|]. intros x [<-|[]]. split; [discriminate|]. split; [discriminate|]. intros n E. injection E as <-. exact Hid.
    - apply in_flat_map in Hp as (a & Ha & Hp). apply in_map_iff in Hp as (b & <- & Hb). destruct (Hf a Ha) as [_ Hb'].
      destruct (Hb' b Hb) as [Hne HF]. simpl. split; [destruct (ab_syms b); [congruence|discriminate]|].
      intros x Hx. apply in_map_iff in Hx as (y & <- & Hy). apply file_named_lower. rewrite Forall_forall in HF. auto. }
  split; [split|].
  - intros p Hp. destruct (H p Hp) as [H1 H2]. split; auto. intros Hx. destruct (H2 _ Hx) as (H3 & _). apply H3. reflexivity.
  - intros p Hp Hx. destruct (H p Hp) as [_ H2]. destruct (H2 _ Hx) as (_ & H3 & _). apply H3. reflexivity.
  - intros p Hp Hx. destruct (H p Hp) as [_ H2]. destruct (H2 _ Hx) as (_ & _ & H3).
    apply (ident_no_quote _ (H3 _ eq_refl) (ap_name st)). rewrite Est. reflexivity.
Qed.
