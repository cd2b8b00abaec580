(** Property C97: texts for which the stack gets as high as one likes. *)
From Coq Require Import String.
From Verif Require Import Base Text Regex Nfa NfaProofs Dfa Lex LexSpec LexNfa LexProofs Grammar GrammarSpec GrammarProofs First Item ItemSpec ItemProofs ItemPlain
  GrammarCheck Table TableSpec MergeProofs TableProofs TableFacts LexGrammar LexGrammarProofs Parse ParseSpec ParseCheck TreeFacts Auto ParseProofs ParseTerm ParseCycle ParseComplete
  Report ReportSpec ReportProofs ReportExact Lalr EndSpec EndProofs Utf8Spec Utf8Proofs GrammarFile GrammarFileSpec Witness PrintSpec
  PropsLex PropsGrammar PropsTable PropsParse PropsReport PropsEnd PropsGrammarFile PropsWhole PropsOutcome PropsParseEnd PropsPrint CompleteProofs PropsComplete Lisp PropsLisp PropsRegular PropsCheck PropsTrace PropsRegularStack HeightSpec PropsHeight PropsHeightExact PropsHeightCheck.
Local Open Scope list_scope.

(** The tokens of an accepted text end with that for the end of the text. *)
Lemma accepted_ended parse ast l input ps : grammar_from_ast ast = Ok (l_grammar l) -> from_grammar parse (l_grammar l) = Ok (l_lexer l) -> lalr_parse l input = Ok ps ->
  exists ts conv w, lex (l_lexer l) input = Ok ts /\ convert_tokens (l_lexer l) ts = Ok conv /\ ended (map snd conv) w /\
    parse_impl (l_grammar l) (l_tables l) (map snd conv) = Ok ps.
Proof.
    intros Hg EL. unfold lalr_parse. intros H. apply bind_ok in H as (ts & Hlex & H). apply bind_ok in H as (cv & Ec & H).
    destruct (convert_characterised parse ast _ _ Hg EL ts) as [H1 H2].
    assert (Hdec : (forall tk, In tk ts -> In (Grammar.SStr (tk_name tk)) (g_tokens (l_grammar l)) \/ In (SReg (tk_name tk)) (g_tokens (l_grammar l))) \/
              (exists tk, In tk ts /\ ~ In (Grammar.SStr (tk_name tk)) (g_tokens (l_grammar l)) /\ ~ In (SReg (tk_name tk)) (g_tokens (l_grammar l)))).
    { clear. induction ts as [|tk ts [IH|(u & Hu & IH)]].
      - left. intros tk [].
      - destruct (in_dec ord_dec (Grammar.SStr (tk_name tk)) (g_tokens (l_grammar l))) as [Ha|Ha].
        + left. intros u [<-|Hu]; auto.
        + destruct (in_dec ord_dec (SReg (tk_name tk)) (g_tokens (l_grammar l))) as [Hb|Hb]; [left; intros u [<-|Hu]; auto|right; exists tk; cbn; auto].
      - right. exists u. cbn. auto. }
    destruct Hdec as [Hd|Hd]; [|rewrite (H2 Hd) in Ec; discriminate].
    destruct (H1 Hd) as (conv & Ec' & Hf & Hk). exists ts, cv, (map snd conv). split; auto. split; auto. split; auto. rewrite Ec' in Ec. injection Ec as <-. split.
    - rewrite map_app. reflexivity.
    - intros Hz. apply in_map_iff in Hz as ([tk k] & Ek & Hin). cbn in Ek. subst k.
      destruct (grammar_from_ast_ok _ _ Hg) as (s' & _ & W & _). destruct (wg_tokens _ _ W) as (lt & El & _).
      destruct (Hk _ _ Hin) as [X|[X _]]; unfold get_token in X; rewrite El in X; discriminate X.
Qed.

Lemma heights_reach g t tokens m n : forall s, m < highest (heights g t tokens n s) -> exists k c, nsteps (parse_step g t tokens) k s c /\ m < length (ps_stack c).
Proof.
  induction n as [|n IH]; intros s H; [cbn in H; lia|]. cbn [heights] in H. destruct (parse_step g t tokens s) as [s'|r] eqn:E; [|cbn in H; lia].
  cbn [highest fold_right] in H. apply Nat.max_lt_iff in H as [H|H].
  - exists 1, s'. split; auto. econstructor; [exact E|constructor].
  - destruct (IH s' H) as (k & c' & H1 & H2). exists (S k), c'. split; auto. econstructor; eauto.
Qed.

(** For a grammar file whose terminals have texts of their own, as in C93: if the check of C97 finds a
    name that comes back and no transition is missing, every number is exceeded by the stack on some
    accepted text. *)
Theorem C97_texts :
  forall parse hash text l ast st hs, build parse hash text = Ok l ->
  file_says text ast -> grammar_from_ast ast = Ok (l_grammar l) -> find ap_start ast = Some st -> all_productive (l_grammar l) ->
  no_clash (l_grammar l) -> Forall2 (fun x h => sym_hir parse x = Some h) (lex_syms (l_grammar l)) hs -> split_refines hs -> Forall productive hs ->
  no_white_texts parse (l_grammar l) -> (forall x, In x (lex_syms (l_grammar l)) -> exists u, ascii u /\ own_text parse (l_grammar l) x u) ->
  complete_b (l_grammar l) (l_tables l) = true -> later_b (l_grammar l) (ap_name st) = true ->
  forall m, exists s ps ts conv a n c, ascii s /\ lalr_parse l s = Ok ps /\ lex (l_lexer l) s = Ok ts /\ convert_tokens (l_lexer l) ts = Ok conv /\
    nth_error (map snd conv) 0 = Some a /\ nsteps (parse_step (l_grammar l) (l_tables l) (map snd conv)) n (parse_init a) c /\ m < length (ps_stack c).
Proof.
  intros parse hash text l ast st hs Hb Hsay Hg Hst Hprod Hn Eh Hsp Hpr Hnw Hown Hc Hlater m.
  destruct (C93_gap_costs parse hash text l ast st hs Hb Hsay Hg Hst Hprod Hn Eh Hsp Hpr Hnw Hown) as [HB _]. specialize (HB Hc).
  unfold build in Hb. apply bind_ok in Hb as (ast' & Ea & Hb). apply bind_ok in Hb as (g' & Hg' & Hl).
  destruct (C51_reading text) as [HR _]. apply HR in Hsay as Ea'. rewrite Ea' in Ea. injection Ea as <-. rewrite Hg in Hg'. injection Hg' as <-.
  pose proof (C52_file_ast _ _ Ea') as Hf. destruct (file_plain _ _ Hf Hg) as [Hp Hfr].
  destruct (new_parts _ _ _ _ Hl) as (_ & HLx & Ht).
  destruct (grammar_from_ast_ok _ _ Hg) as (s' & Hs' & W & Haug & _). rewrite Hst in Hs'. injection Hs' as <-.
  apply later_b_iff in Hlater. destruct (back_trees _ _ Hprod Hlater (S m)) as (tr & Ho & Hr & Hneed).
    assert (HL : exists leaves, map fst leaves = yield tr /\ Forall (fun xu => own_text parse (l_grammar l) (fst xu) (snd xu)) leaves /\ Forall (fun xu => ascii (snd xu)) leaves).
    { assert (Hy : forall x, In x (yield tr) -> exists u, ascii u /\ own_text parse (l_grammar l) x u).
      { intros y Hy. apply Hown. apply filter_In.
        destruct (tree_tokens _ _ W (proj2 Hp) tr Ho Hr) as (w & Hend & _ & _ & Hw).
        assert (Hin : In y (g_tokens (l_grammar l))).
        { unfold symbols in Hw. assert (HI : In (Some y) (map (nth_error (g_tokens (l_grammar l))) w)) by (rewrite Hw; apply in_map, Hy).
          apply in_map_iff in HI as (k' & Hk' & _). eapply nth_error_In, Hk'. }
        split; auto. pose proof (tree_terminals _ tr Ho) as Htm. unfold terminals in Htm. rewrite Forall_forall in Htm. specialize (Htm y Hy).
        destruct y as [u|n|u| |]; auto; [exfalso; eapply Htm; reflexivity|exfalso..].
        - assert (U : Forall (used (l_grammar l)) (yield tr)).
          { eapply derives_used; [eapply tree_derives; eauto|]. constructor; [|constructor]. eexists. split; [eapply nth_error_In, (wg_prod0 _ _ W)|left; reflexivity]. }
          rewrite Forall_forall in U. destruct (U _ Hy) as (q & Hq & Hqx). exact (proj2 (proj1 Hp q Hq) Hqx).
        - revert Hy. apply (no_eof _ tr (proj2 Hp) Ho). rewrite Hr. discriminate. }
      revert Hy. generalize (yield tr) as l0. clear. induction l0 as [|x l0 IH]; intros H; [exists []; repeat constructor|].
      destruct IH as (leaves & E & F1 & F2); [intros; apply H; right; auto|]. destruct (H x (or_introl eq_refl)) as (u & Ha & Ho).
      exists ((x, u) :: leaves). cbn [map fst]. rewrite E. repeat split; constructor; auto. }
  destruct HL as (leaves & E & F1 & F2). destruct (printed_all leaves) as (s & HP & Ha). specialize (Ha F2).
  pose proof (HB tr leaves s Ho Hr (eq_sym E) F1 HP Ha) as Hps.
  destruct (accepted_ended parse ast l s _ Hg HLx Hps) as (ts & conv & w & Q1 & Q2 & Q3 & Q4).
  destruct (C97_accepted _ _ _ Hg Hst (proj2 Hp) Hfr _ _ Ht _ _ _ Q3 Q4) as (tr' & a & n & c & (Ho' & Hr' & _) & Epo & Ha0 & Hn' & _ & _ & HH & _).
  assert (tr' = tr) as -> by (eapply post_inj; eauto; congruence).
  destruct (heights_reach (l_grammar l) (l_tables l) (map snd conv) m n (parse_init a)) as (k & c' & K1 & K2); [rewrite HH; lia|].
  exists s, (postorder tr), ts, conv, a, k, c'. exact (conj Ha (conj Hps (conj Q1 (conj Q2 (conj Ha0 (conj K1 K2)))))).
Qed.
Print Assumptions C97_texts.

(** S -> "a" S | "b" as a file: for every number there is a text of enough a's. *)
Definition file_right : str := lines [tx "export start S: (T) = ["; tx """a"" <x: S> => (x),"; tx """b"" => (x)"; tx "]"].
Example C97_texts_nonvacuous : exists l, build reg ehash file_right = Ok l /\
  forall m, exists s ps ts conv a n c, ascii s /\ lalr_parse l s = Ok ps /\ lex (l_lexer l) s = Ok ts /\ convert_tokens (l_lexer l) ts = Ok conv /\
    nth_error (map snd conv) 0 = Some a /\ nsteps (parse_step (l_grammar l) (l_tables l) (map snd conv)) n (parse_init a) c /\ m < length (ps_stack c).
Proof.
  destruct (build reg ehash file_right) as [l| |] eqn:E; [|vm_compute in E; discriminate E..].
  destruct (C82_text_end _ _ _ _ E) as (ast & st & lv & ac & Hsay & Hg & Hst & _).
  assert (Hc : complete_b (l_grammar l) (l_tables l) = true) by (clear -E; vm_compute in E; injection E as <-; vm_compute; reflexivity).
  assert (HL : letters (l_grammar l)) by (clear -E; vm_compute in E; injection E as <-; apply letters_b_ok; vm_compute; reflexivity).
  assert (Hp : all_productive (l_grammar l)) by (clear -E; vm_compute in E; injection E as <-; apply (productive_b_ok _ [Node 2 [Leaf (Grammar.SStr [98]%N)]]); vm_compute; reflexivity).
  assert (Hlt : later_b (l_grammar l) (ap_name st) = true).
  { apply (proj1 (C51_reading file_right)) in Hsay. clear -E Hsay Hst. vm_compute in Hsay. injection Hsay as <-. vm_compute in Hst. injection Hst as <-. vm_compute in E. injection E as <-. vm_compute. reflexivity. }
  destruct (hirs reg (lex_syms (l_grammar l))) as [hs|] eqn:Eh; [|clear -E Eh; vm_compute in E; injection E as <-; vm_compute in Eh; discriminate Eh].
  assert (Hsp : split_b hs && forallb hir_ok_b hs = true) by (clear -E Eh; vm_compute in E; injection E as <-; vm_compute in Eh; injection Eh as <-; vm_compute; reflexivity).
  apply andb_true_iff in Hsp as [Hsp Hok].
  assert (HC : forall x, In x (lex_syms (l_grammar l)) -> exists c, x = Grammar.SStr [c] /\ (33 <= c <= 126)%N).
  { assert (HB : forallb (fun x => match x with Grammar.SStr [c] => N.leb 33 c && N.leb c 126 | _ => false end) (lex_syms (l_grammar l)) = true)
      by (clear -E; vm_compute in E; injection E as <-; vm_compute; reflexivity).
    intros x Hx. rewrite forallb_forall in HB. specialize (HB x Hx). destruct x as [[|c [|? ?]]| | | |]; try discriminate HB. exists c. split; auto.
    apply andb_true_iff in HB as [H1 H2]. apply N.leb_le in H1, H2. split; auto. }
  exists l. split; auto.
  apply (C97_texts reg ehash file_right l ast st hs E Hsay Hg Hst Hp (letters_no_clash _ HL) (hirs_ok _ _ _ Eh) (split_b_ok _ Hsp)); auto.
  - apply Forall_forall. intros h Hin. rewrite forallb_forall in Hok. apply hir_ok_productive. auto.
  - intros x u c Hx Hu Hin Hwh. destruct (HC x Hx) as (c' & -> & H1 & H2). cbn in Hu. subst u. destruct Hin as [<-|[]]. destruct Hwh as [->| ->]; lia.
  - intros x Hx. destruct (HC x Hx) as (c & -> & H1 & H2). exists [c]. split; [constructor; [lia|constructor]|]. split; [discriminate|].
    apply In_nth_error in Hx as [i Hi]. exists i. split; auto. split; [exists (Grammar.SStr [c]); split; [exact Hi|reflexivity]|].
    intros j x Hj Hx Hlx. destruct (proj2 HL x) as [d ->]; [eapply nth_error_In, Hx|]. cbn in Hlx. injection Hlx as ->.
    pose proof (proj1 HL) as Hnd. rewrite NoDup_nth_error in Hnd. assert (j = i); [|lia]. apply Hnd; [eapply nth_error_Some; congruence|congruence].
Qed.
