(** Lexing and parsing texts with grammars whose terminals are written differently. *)
From Coq Require Import Permutation.
From Verif Require Import Base IsoSpec SpellSpec Regex Nfa Dfa Lex LexSpec LexProofs Grammar GrammarSpec GrammarProofs First FirstProofs Item ItemSpec
  ItemProofs ItemPlain Table MergeProofs TableSpec TableProofs TableFacts LexGrammar LexGrammarProofs Parse ParseSpec ParseProofs Lalr EndSpec EndProofs
  Iso IsoParse IsoGrammar.

Lemma exact_defs parse g tokens : exact_lexer parse g -> grammar_tokens parse g = Ok tokens ->
  split_refines (map snd tokens) /\ forall h, In h (map snd tokens) -> productive h.
Proof.
  intros (hs & HF & H1 & H2) Et. assert (hs = map snd tokens) as ->; [|split; auto; rewrite Forall_forall in H2; exact H2].
  pose proof (defs_aligned _ _ _ _ Et) as HD. unfold lex_syms in HF. revert HD HF. generalize (filter lexical (g_tokens g)) as ys.
  clear. intros ys HD. revert hs. induction HD as [|y th ys ths (Hy & _) _ IH]; intros hs H; inversion H; subst; auto.
  simpl. f_equal; [|auto]. destruct y; simpl in Hy; congruence.
Qed.

(** The tokens of a text, in terms of the symbols. *)
Lemma exact_tokens parse g tokens L input : exact_lexer parse g -> grammar_tokens parse g = Ok tokens -> from_tokens tokens = Ok L ->
  exists ts r, Tokenize (begins parse g) (is_sym parse g) 0 input ts r /\ lex L input = mapM (token_of tokens input) ts /\
    forall p i u, In (p, i, u) ts -> exists td h, nth_error tokens i = Some (td, h).
Proof.
  intros He Et HL. destruct (exact_defs _ _ _ He Et) as [Hs Hp].
  destruct (lex_exact tokens L input HL Hs) as (lv & ts & r & HT & El & _ & _ & _ & Hv). specialize (Hv Hp).
  exists ts, r. split; [|split; [exact El|]].
  - revert HT. apply tokenize_ext.
    + intros w Hw. rewrite (Hv w Hw). apply (begins_viable _ _ _ Et).
    + intros w i _. apply (first_is_sym _ _ _ Et).
  - intros p i u Hin. destruct (tokenize_longest _ _ _ _ _ _ HT p i u Hin) as (a & b & _ & _ & (_ & ((h & Hh & _) & _) & _)).
    rewrite nth_error_map in Hh. destruct (nth_error tokens i) as [[td h']|]; [eauto|discriminate].
Qed.

(** Positions in the list of terminals. *)
Lemma lex_syms_sorted ast g : grammar_from_ast ast = Ok g -> ssorted (lex_syms g).
Proof.
  intros Hg. destruct (prods_rules _ _ Hg) as (s & _ & W & _). destruct (wg_tokens _ _ W) as (l & El & Hs & _).
  unfold lex_syms. rewrite El. cbn [filter lexical]. clear -Hs. induction l as [|x l IH]; [exact I|]. destruct Hs as [Ha Hs].
  cbn [filter]. destruct (lexical x); auto. split; auto. intros y Hy. apply filter_In in Hy as [Hy _]. auto.
Qed.
Lemma sorted_lt (l : list sym) : ssorted l -> forall i j x y, nth_error l i = Some x -> nth_error l j = Some y -> (i < j <-> cmp x y = Lt).
Proof.
  induction l as [|a l IH]; intros Hs i j x y Hi Hj; [destruct i; discriminate|]. destruct Hs as [Ha Hs]. destruct i as [|i], j as [|j]; simpl in Hi, Hj.
  - injection Hi as ->. injection Hj as ->. rewrite cmp_refl. split; [lia|discriminate].
  - injection Hi as ->. split; [|lia]. intros _. apply Ha. eauto using nth_error_In.
  - injection Hj as ->. split; [lia|]. intros Hc. exfalso. apply (cmp_lt_irrefl x). eapply cmp_trans; [exact Hc|]. apply Ha. eauto using nth_error_In.
  - rewrite <- (IH Hs i j x y Hi Hj). lia.
Qed.
Lemma sorted_inj (l : list sym) : ssorted l -> forall i j x, nth_error l i = Some x -> nth_error l j = Some x -> i = j.
Proof.
  intros Hs i j x Hi Hj. apply (proj1 (NoDup_nth_error l) (ssorted_NoDup _ Hs)); [apply nth_error_Some; congruence|congruence].
Qed.
Fixpoint find_pos (x : sym) (l : list sym) : nat :=
  match l with [] => 0 | y :: l' => if eqb x y then 0 else S (find_pos x l') end.
Lemma find_pos_ok x l : In x l -> nth_error l (find_pos x l) = Some x.
Proof.
  induction l as [|y l IH]; intros H; [destruct H|]. cbn [find_pos]. destruct (eqb x y) eqn:E; [apply eqb_eq in E as ->; reflexivity|].
  destruct H as [->|H]; [rewrite eqb_refl in E; discriminate|]. exact (IH H).
Qed.

Section Spell.
  Variables (parse : str -> option hir) (X : sym -> sym) (ast ast' : list aprod) (g g' : grammar).
  Hypothesis HR : respelt X ast ast'.
  Hypothesis Hg : grammar_from_ast ast = Ok g.
  Hypothesis Hg' : grammar_from_ast ast' = Ok g'.

  (** The terminals of one are those of the other, written differently. *)
  Lemma lex_syms_image : (forall x, In x (lex_syms g) -> In (X x) (lex_syms g')) /\
    (forall x', In x' (lex_syms g') -> exists x, In x (lex_syms g) /\ x' = X x).
  Proof using HR Hg Hg'.
    destruct (same_perm _ _ _ _ _ HR Hg Hg') as (f & f' & Hb & Hfk & Hf & HP).
    destruct (same_tokens _ _ _ _ Hg Hg' f f' Hb HP) as (l & l' & El & El' & _ & _ & HPt).
    assert (Hl : forall x, In x l -> f x = X x).
    { destruct (prods_rules _ _ Hg) as (s & _ & W & _). destruct (wg_tokens _ _ W) as (l0 & E0 & _ & Hl0).
      rewrite El in E0. injection E0 as <-. intros x Hx. apply Hl0 in Hx as (pr & Hpr & Hx). apply In_nth_error in Hpr as [n Hn].
      exact (proj2 (Hf n pr Hn) x Hx). }
    assert (Hk : forall x, lexical (f x) = lexical x).
    { intros x. specialize (Hfk x). destruct x, (f _); simpl in *; congruence. }
    unfold lex_syms. rewrite El, El'. cbn [filter lexical]. split.
    - intros x Hx. apply filter_In in Hx as [Hx Hlx]. apply filter_In. rewrite <- (Hl x Hx), Hk. split; auto.
      eapply Permutation_in; [exact HPt|]. apply in_map, Hx.
    - intros x' Hx. apply filter_In in Hx as [Hx Hlx]. apply (Permutation_in _ (Permutation_sym HPt)) in Hx.
      apply in_map_iff in Hx as (x & <- & Hx). exists x. rewrite <- (Hl x Hx). split; auto. apply filter_In. rewrite <- (Hk x). auto.
  Qed.

  Hypothesis HX : same_texts parse X g.
  (** Where a terminal has gone. *)
  Definition moved (i : nat) : nat := match nth_error (lex_syms g) i with Some x => find_pos (X x) (lex_syms g') | None => 0 end.
  Lemma moved_ok i x : nth_error (lex_syms g) i = Some x -> nth_error (lex_syms g') (moved i) = Some (X x).
  Proof using HR Hg Hg'.
    intros E. unfold moved. rewrite E. apply find_pos_ok. apply lex_syms_image. eauto using nth_error_In.
  Qed.

  Lemma begins_same w : w <> [] -> (begins parse g' w <-> begins parse g w).
  Proof using HR Hg Hg' HX.
    intros Hw. destruct lex_syms_image as [I1 I2]. destruct HX as [HL _].
    assert (G : forall v, w ++ v <> []) by (intros v; destruct w; [tauto|discriminate]). split.
    - intros (x' & v & Hx & Hv). destruct (I2 x' Hx) as (x & Hin & ->). exists x, v. split; auto. apply (HL x Hin _ (G v)), Hv.
    - intros (x & v & Hx & Hv). exists (X x), v. split; auto. apply (HL x Hx _ (G v)), Hv.
  Qed.
  Lemma is_sym_same w j : w <> [] -> (is_sym parse g' w j <-> exists i, is_sym parse g w i /\ j = moved i).
  Proof using HR Hg Hg' HX.
    intros Hw. destruct lex_syms_image as [I1 I2]. destruct HX as [HL HO].
    pose proof (lex_syms_sorted _ _ Hg) as Hs. pose proof (lex_syms_sorted _ _ Hg') as Hs'. split.
    - intros [(x' & Hj & Hx') Hmin]. destruct (I2 x' (nth_error_In _ _ Hj)) as (x & Hin & ->).
      apply (HL x Hin w Hw) in Hx'. apply In_nth_error in Hin as [i Hi]. exists i. split.
      + split; [eauto|]. intros i' y Hlt Hi' Hy. apply (sorted_lt _ Hs i' i y x Hi' Hi) in Hlt.
        rewrite <- (HO y x w) in Hlt; eauto using nth_error_In.
        pose proof (moved_ok i' y Hi') as Hm. apply (sorted_lt _ Hs' _ j _ _ Hm Hj) in Hlt.
        apply (Hmin _ _ Hlt Hm). apply HL; eauto using nth_error_In.
      + apply (sorted_inj _ Hs' j (moved i) (X x) Hj). apply moved_ok, Hi.
    - intros (i & [(x & Hi & Hx) Hmin] & ->). pose proof (moved_ok i x Hi) as Hm. split.
      + exists (X x). split; auto. apply HL; eauto using nth_error_In.
      + intros j y' Hlt Hj Hy'. destruct (I2 y' (nth_error_In _ _ Hj)) as (y & Hin & ->). apply (HL y Hin w Hw) in Hy'.
        pose proof Hin as Hin'. apply In_nth_error in Hin as [i' Hi'].
        apply (sorted_lt _ Hs' _ _ _ _ Hj Hm) in Hlt. rewrite (HO y x w) in Hlt; eauto using nth_error_In.
        apply (sorted_lt _ Hs i' i y x Hi' Hi) in Hlt. exact (Hmin i' y Hlt Hi' Hy').
  Qed.

  Hypothesis He : exact_lexer parse g.
  Hypothesis He' : exact_lexer parse g'.
  Variables (tokens tokens' : list (token_def * hir)) (L L' : lexer).
  Hypothesis Et : grammar_tokens parse g = Ok tokens.
  Hypothesis Et' : grammar_tokens parse g' = Ok tokens'.
  Hypothesis HLx : from_tokens tokens = Ok L.
  Hypothesis HLx' : from_tokens tokens' = Ok L'.

  Definition mv (x : nat * nat * list N) : nat * nat * list N := (fst (fst x), moved (snd (fst x)), snd x).

  Lemma spell_tokens input : exists ts, lex L input = mapM (token_of tokens input) ts /\
    lex L' input = mapM (token_of tokens' input) (map mv ts) /\
    (forall p i u, In (p, i, u) ts -> exists td h, nth_error tokens i = Some (td, h)) /\
    (forall p i u, In (p, i, u) (map mv ts) -> exists td h, nth_error tokens' i = Some (td, h)).
  Proof using HR Hg Hg' HX He He' Et Et' HLx HLx'.
    destruct (exact_tokens _ _ _ _ input He Et HLx) as (ts & r & HT & El & Hin).
    destruct (exact_tokens _ _ _ _ input He' Et' HLx') as (ts' & r' & HT' & El' & Hin').
    destruct (tokenize_rename _ (begins parse g) _ (is_sym parse g) moved begins_same is_sym_same _ _ _ _ HT') as (ts2 & HT2 & ->).
    assert (ts2 = ts) as ->.
    { eapply (tokenize_det _ (is_sym parse g)); eauto. intros w i j. rewrite <- !(first_is_sym _ _ _ Et). apply first_match_fun. }
    exists ts. auto.
  Qed.

  (** The tokens found: the same values, under the names of the terminals as written. *)
  Definition tok_rel (t t' : token) : Prop :=
    tk_val t' = tk_val t /\ exists x, In x (lex_syms g) /\ tk_name t = spelling x /\ tk_name t' = spelling (X x).
  Lemma token_of_def tokens0 (g0 : grammar) input p i u td h : grammar_tokens parse g0 = Ok tokens0 -> nth_error tokens0 i = Some (td, h) ->
    exists x, nth_error (lex_syms g0) i = Some x /\
      token_of tokens0 input (p, i, u) = rmap (fun v => Token (spelling x) (Some v)) (byte_slice input p (p + length u)).
  Proof.
    intros E0 Hi. destruct (def_sym _ _ _ E0 i td h Hi) as (k & x & Hx & Hk & Hgk & _). exists x. split; auto.
    pose proof (nth_error_In _ _ Hi) as Hin. apply (grammar_tokens_spec _ _ _ E0) in Hin as (k' & y & n & Hk' & Hn & -> & _).
    simpl in Hk. injection Hk as <-. rewrite Hgk in Hk'. injection Hk' as <-.
    simpl. rewrite Hi. cbn [td_with_val td_name].
    assert (n = spelling x) as -> by (destruct x; simpl in *; try discriminate; congruence).
    destruct (byte_slice input p (p + length u)); reflexivity.
  Qed.
  Lemma spell_lex input :
    match lex L input, lex L' input with
    | Ok out, Ok out' => Forall2 tok_rel out out'
    | Panic p, Panic p' => p = p'
    | _, _ => False
    end.
  Proof using HR Hg Hg' HX He He' Et Et' HLx HLx'.
    destruct (spell_tokens input) as (ts & -> & -> & Hin & Hin').
    induction ts as [|[[p i] u] ts IH]; [constructor|]. cbn [map mapM].
    destruct (Hin p i u (or_introl eq_refl)) as (td & h & Hi). destruct (Hin' p (moved i) u (or_introl eq_refl)) as (td' & h' & Hi').
    destruct (token_of_def _ _ input p i u _ _ Et Hi) as (x & Hx & ->).
    change (mv (p, i, u)) with (p, moved i, u).
    destruct (token_of_def _ _ input p (moved i) u _ _ Et' Hi') as (x' & Hx' & ->).
    rewrite (moved_ok i x Hx) in Hx'. injection Hx' as <-.
    pose proof (byte_slice_panic input p (p + length u)) as Hb.
    destruct (byte_slice input p (p + length u)) as [v|q|]; cbn [rmap bind]; [|reflexivity|contradiction].
    specialize (IH (fun p i u H => Hin p i u (or_intror H)) (fun p i u H => Hin' p i u (or_intror H))).
    destruct (mapM (token_of tokens input) ts), (mapM (token_of tokens' input) (map mv ts)); cbn [bind]; try contradiction; auto.
    constructor; auto. split; [reflexivity|]. exists x. simpl. eauto using nth_error_In.
  Qed.
End Spell.

(** ** Whole parsers *)
Section Whole.
  Variables (parse : str -> option hir) (X : sym -> sym) (ast ast' : list aprod) (g g' : grammar).
  Hypothesis HR : respelt X ast ast'.
  Hypothesis Hg : grammar_from_ast ast = Ok g.
  Hypothesis Hg' : grammar_from_ast ast' = Ok g'.
  Hypothesis Hf : eps_free g.
  Variables (hash hash' : list item -> N) (l l' : lalr).
  Hypothesis Hl : lalr_new parse hash g = Ok l.
  Hypothesis Hl' : lalr_new parse hash' g' = Ok l'.
  Hypothesis Hno : forall s, ~ (In (SStr s) (g_tokens g) /\ In (SReg s) (g_tokens g)).
  Hypothesis Hno' : forall s, ~ (In (SStr s) (g_tokens g') /\ In (SReg s) (g_tokens g')).
  Hypothesis HX : same_texts parse X g.
  Hypothesis He : exact_lexer parse g.
  Hypothesis He' : exact_lexer parse g'.

  Lemma spell_parse f f' P P' K K' : iso g g' f f' P P' K K' ->
    (forall pr x, In pr (g_prods g) -> In x (p_syms pr) -> f x = X x) ->
    forall input, lalr_parse l' input = rmap (map P) (lalr_parse l input).
  Proof using HR Hg Hg' Hf Hl Hl' Hno Hno' HX He He'.
    intros HI HfX input.
    destruct (new_parts _ _ _ _ Hl) as (Egl & HL & Ht). destruct (from_grammar_inv _ _ _ HL) as (tokens & Et & EL).
    destruct (new_parts _ _ _ _ Hl') as (Egl' & HL' & Ht'). destruct (from_grammar_inv _ _ _ HL') as (tokens' & Et' & EL').
    destruct (spell_tokens parse X ast ast' g g' HR Hg Hg' HX He He' tokens tokens' _ _ Et Et' EL EL' input) as (ts & El & El' & Hin & Hin').
    pose proof (spell_lex parse X ast ast' g g' HR Hg Hg' HX He He' tokens tokens' _ _ Et Et' EL EL' input) as Hlx.
    destruct (lex (l_lexer l) input) as [out|p|] eqn:Eo, (lex (l_lexer l') input) as [out'|p'|] eqn:Eo'; try contradiction.
    2:{ unfold lalr_parse. rewrite Eo, Eo'. cbn [bind rmap]. congruence. }
    clear Hlx. rewrite <- Eo in El. rewrite <- Eo' in El'.
    destruct (parse_tokens _ _ _ _ _ Hg Hl tokens Et Hno input ts out El Eo Hin) as (syms & w & HF & Hw & _ & Htm & ->).
    destruct (parse_tokens _ _ _ _ _ Hg' Hl' tokens' Et' Hno' input _ out' El' Eo' Hin') as (syms' & w' & HF' & Hw' & _ & _ & ->).
    assert (syms' = map X syms) as ->.
    { clear -HF HF' HR Hg Hg'. revert syms' HF'. induction HF as [|[[p i] u] s ts syms Hs _ IH]; intros syms' HF'; inversion HF' as [|a b c d Hb Hd]; subst; auto.
      cbn [map]. f_equal; [|auto]. simpl in Hb, Hs. rewrite (moved_ok _ _ _ _ _ HR Hg Hg' i s Hs) in Hb. congruence. }
    destruct (prods_rules _ _ Hg) as (st & _ & W & _). destruct (prods_rules _ _ Hg') as (st' & _ & W' & _).
    pose proof (same_eps_free _ _ _ _ _ HR Hg Hg' Hf) as Hf'.
    destruct (make_tables_built _ _ _ _ W Ht) as (lr0 & m & B). destruct (make_tables_built _ _ _ _ W' Ht') as (lr0' & m' & B').
    rewrite <- (iso_parse _ _ _ _ _ _ _ _ HI _ _ W W' Hf Hf' _ _ _ _ _ _ _ _ B B' (w ++ [0])). f_equal.
    rewrite map_app. cbn [map]. rewrite (is_K0 _ _ _ _ _ _ _ _ HI). f_equal.
    assert (Hlx : Forall (fun s => In s (lex_syms g)) syms).
    { clear -HF. induction HF; constructor; eauto using nth_error_In. }
    unfold symbols in Hw, Hw'. destruct (token_table _ _ Hg') as (_ & _ & Hu & _). destruct (token_table _ _ Hg) as (_ & Hbody & _).
    clear -Hw Hw' Hlx HfX HI Hu Hbody Hg Hg'. revert w' syms Hw Hw' Hlx. induction w as [|k w IH]; intros w' [|s syms] Hw Hw' Hlx; try discriminate.
    - destruct w'; [reflexivity|discriminate].
    - destruct w' as [|k' w']; [discriminate|]. cbn [map] in Hw, Hw' |- *. injection Hw as Hk Hw. injection Hw' as Hk' Hw'.
      inversion Hlx as [|a b Ha Hb]; subst. f_equal; [|eauto].
      assert (Hs : lexical s = true) by (apply filter_In in Ha; apply Ha).
      assert (Hkp : 0 < k). { destruct k; [|lia]. destruct (token_table _ _ Hg) as (H0 & _). unfold get_token in H0. rewrite H0 in Hk. injection Hk as <-. discriminate. }
      destruct (proj2 (Hbody s)) as (pr & Hpr & Hx); [exists k; auto|].
      pose proof (fw_tok _ _ _ _ _ _ _ _ HI _ _ Hk) as HKk. rewrite (HfX pr s Hpr Hx) in HKk.
      apply (Hu k' (K k) (X s)); auto.
      + destruct k'; [|lia]. destruct (token_table _ _ Hg') as (H0 & _). unfold get_token in H0. rewrite H0 in Hk'. injection Hk' as E.
        pose proof (is_kind _ _ _ _ _ _ _ _ HI s) as Ekd. rewrite (HfX pr s Hpr Hx), <- E in Ekd. destruct s; discriminate.
      + destruct (K k) eqn:E; [|lia]. pose proof (is_K0 _ _ _ _ _ _ _ _ HI) as E0. rewrite <- E0 in E. apply (f_equal K') in E.
        rewrite !(bij_l _ _ (is_K _ _ _ _ _ _ _ _ HI)) in E. lia.
  Qed.
End Whole.
