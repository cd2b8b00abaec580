(** Property C76: adding rules to a grammar. *)
From Verif Require Import Base IsoSpec Grammar GrammarSpec GrammarProofs GrammarCheck First FirstProofs Item ItemSpec ItemProofs ItemPlain
  Table TableSpec MergeProofs TableProofs TableFacts Witness PropsGrammar PropsTable Parse ParseSpec ParseCheck TreeFacts Auto ParseProofs
  ParseTerm ParseCycle ParseComplete PropsParse ReportSpec PropsReport
  Regex Nfa Dfa Lex LexGrammar LexGrammarProofs Lalr Iso IsoParse IsoGrammar Useless UselessGrammar PropsUseless ExtendSpec.

Local Ltac compute_ok := vm_compute; reflexivity.
Local Ltac open Eg Et := vm_compute in Eg; injection Eg as <-; vm_compute in Et; injection Et as <-.
Local Ltac wf_ok Eg := vm_compute in Eg; injection Eg as <-;
  split; [split; [apply eps_free_b_ok|apply eof_free_b_ok]|apply start_fresh_b_ok]; reflexivity.
Local Ltac witness a Eg Et g t :=
  destruct (grammar_from_ast a) as [g| |] eqn:Eg; [|vm_compute in Eg; discriminate Eg..];
  destruct (make_tables ehash g) as [t| |] eqn:Et; [|vm_compute in Eg; injection Eg as <-; vm_compute in Et; discriminate Et..].

(** A tree of the smaller grammar is one of the larger, up to the numbers of the rules. *)
Lemma tree_extend g g' : (forall p pr, nth_error (g_prods g) p = Some pr -> exists p', same_rule g g' p p') ->
  forall tr, tree_ok g tr -> exists tr', tree_ok g' tr' /\ root g' tr' = root g tr /\ yield tr' = yield tr /\ Forall2 (same_rule g g') (postorder tr) (postorder tr').
Proof.
  intros H. induction tr as [x|p ts IH] using tree_ind'; intros Ho.
  - exists (Leaf x). inversion Ho; subst. repeat split; auto. constructor; auto. constructor.
  - apply tree_ok_node in Ho as (pr & Hp & Hts & Hr).
    assert (G : exists ts', Forall (tree_ok g') ts' /\ map (root g') ts' = map (root g) ts /\ flat_map yield ts' = flat_map yield ts /\ Forall2 (same_rule g g') (flat_map postorder ts) (flat_map postorder ts')).
    { clear Hr. induction ts as [|tr ts IHl]; [exists []; repeat split; constructor|]. inversion IH as [|? ? I1 I2]; inversion Hts as [|? ? O1 O2]; subst.
      destruct (I1 O1) as (tr' & A1 & A2 & A3 & A4), (IHl I2 O2) as (ts' & B1 & B2 & B3 & B4). exists (tr' :: ts'). cbn [map flat_map].
      repeat split; [constructor; auto|congruence|congruence|apply Forall2_app; auto]. }
    destruct G as (ts' & G1 & G2 & G3 & G4). destruct (H p pr Hp) as (p' & S). pose proof S as (pr0 & pr' & E0 & Hp' & En & Es). rewrite Hp in E0. injection E0 as <-.
    exists (Node p' ts'). split; [econstructor; eauto; congruence|]. cbn [root yield postorder]. rewrite Hp, Hp', En. repeat split; auto. apply Forall2_app; auto.
Qed.

Section Extends.
  Variables (ast ast' : list aprod) (g g' : grammar).
  Hypothesis HE : extends ast ast'.
  Hypothesis Hg : grammar_from_ast ast = Ok g.
  Hypothesis Hg' : grammar_from_ast ast' = Ok g'.

  Lemma extend_rules p pr : nth_error (g_prods g) p = Some pr -> exists p', same_rule g g' p p'.
  Proof using HE Hg Hg'.
    intros E. destruct HE as (Hi & s & s' & Hs & Hs' & En). destruct (prods_rules _ _ Hg) as (s1 & E1 & _ & M). destruct (prods_rules _ _ Hg') as (s1' & E1' & _ & M').
    rewrite Hs in E1. injection E1 as <-. rewrite Hs' in E1'. injection E1' as <-. rewrite En in M'.
    assert (I : In (shape pr) (map shape (g_prods g'))).
    { rewrite M'. pose proof (in_map shape _ _ (nth_error_In _ _ E)) as I. rewrite M in I. destruct I as [I|I]; [left; exact I|right; apply Hi, I]. }
    apply in_map_iff in I as (pr' & E' & I). apply In_nth_error in I as [p' I]. exists p', pr, pr'. unfold shape in E'. injection E' as E1 E2. auto.
  Qed.
  Lemma extend_tokens x : In x (g_tokens g) -> In x (g_tokens g').
  Proof using HE Hg Hg'.
    destruct (prods_rules _ _ Hg) as (s & _ & W & _). destruct (prods_rules _ _ Hg') as (s' & _ & W' & _).
    destruct (wg_tokens _ _ W) as (l & -> & _ & Hl). destruct (wg_tokens _ _ W') as (l' & -> & _ & Hl'). intros [<-|H]; [left; auto|right].
    apply Hl in H as (pr & Hp & Hx). apply In_nth_error in Hp as [p Hp]. destruct (extend_rules p pr Hp) as (p' & pr0 & pr' & E0 & Hp' & _ & Es). rewrite Hp in E0. injection E0 as <-.
    apply Hl'. exists pr'. rewrite Es. split; [eapply nth_error_In; eauto|auto].
  Qed.

  (** With the same terminals the lexers are the same, but for the numbers of the tokens. *)
  Lemma extend_lexer K parse : same_terminals ast ast' -> eof_free g -> eof_free g' -> (forall k x, tok g k x -> tok g' (K k) x) ->
    from_grammar parse g' = rmap (lx_map K) (from_grammar parse g).
  Proof using HE Hg Hg'.
    intros Hn Hf Hf' HK.
    destruct (prods_rules _ _ Hg) as (st & _ & W & M). destruct (prods_rules _ _ Hg') as (st' & _ & W' & M').
    destruct (wg_tokens _ _ W) as (l & El & Hs & Hl). destruct (wg_tokens _ _ W') as (l' & El' & Hs' & Hl').
    assert (Hterm : filter is_term l = filter is_term l').
    { apply ssorted_ext; try (apply ssorted_filter; assumption). intros x. rewrite !filter_In, Hl, Hl'. split.
      - intros [(pr & Hpr & Hx) Et]. split; auto. apply In_nth_error in Hpr as [p Hp]. destruct (extend_rules p pr Hp) as (p' & pr0 & pr' & E0 & Hp' & _ & Es).
        rewrite Hp in E0. injection E0 as <-. exists pr'. rewrite Es. split; [eapply nth_error_In; eauto|auto].
      - intros [(pr & Hpr & Hx) Et]. split; auto. apply (in_map shape) in Hpr. rewrite M' in Hpr. destruct Hpr as [Ep|Hpr].
        + unfold shape in Ep. injection Ep as _ Ep. rewrite <- Ep in Hx. destruct Hx as [<-|[]]. discriminate Et.
        + destruct (Hn _ _ x Hpr Hx) as (B & c & Hc & Hxc); [apply is_term_terminal, Et|].
          assert (I : In (B, c) (map shape (g_prods g))) by (rewrite M; right; exact Hc). apply in_map_iff in I as (pr0 & Es & I). exists pr0. split; auto. unfold shape in Es. injection Es as _ Es. rewrite Es. exact Hxc. }
    unfold from_grammar, grammar_tokens. rewrite (tokens_from_map K parse (g_tokens g) (g_tokens g') 0 0).
    - destruct (grammar_tokens_from parse 0 (g_tokens g)); cbn [bind rmap]; [|reflexivity..]. apply from_tokens_map.
    - rewrite El, El'. cbn [filter]. destruct (is_term SEof); [f_equal|]; exact Hterm.
    - intros k k' x Hk Hk' _. cbn [Nat.add]. eapply (tok_first g'); [apply HK, (plain_tok _ _ Hg Hf), Hk|apply (plain_tok _ _ Hg' Hf'), Hk'].
  Qed.
End Extends.

(** ** C76 *)

(** What was accepted still is, with the same rules, if no transition is missing from the larger
    grammar's tables (C28); missing: the general case, where it is false. *)
Theorem C76_kept_partial :
  forall ast g ast' g', grammar_from_ast ast = Ok g -> grammar_from_ast ast' = Ok g' -> extends ast ast' ->
  well_formed g -> well_formed g' ->
  forall hash t hash' t', make_tables hash g = Ok t -> make_tables hash' g' = Ok t' -> closed g' t' ->
  forall tokens w tokens' w' l ps, ended tokens w -> ended tokens' w' -> symbols g w l -> symbols g' w' l ->
  parse_impl g t tokens = Ok ps -> exists ps', parse_impl g' t' tokens' = Ok ps' /\ Forall2 (same_rule g g') ps ps'.
Proof.
  intros ast g ast' g' Hg Hg' HE [Hp Hf] [Hp' Hf'] hash t hash' t' Ht Ht' Hc tokens w tokens' w' l ps Hw Hw' Hl Hl' Hps.
  pose proof HE as (Hi & s & s' & Hs & Hs' & En).
  apply (C30_accepts_iff _ _ _ Hg Hs Hp Hf _ _ Ht _ _ _ Hw) in Hps as (tr & j & (Ho & Hr & Hy) & _ & ->).
  destruct (tree_extend g g' (extend_rules _ _ _ _ HE Hg Hg') tr Ho) as (tr' & O' & R' & Y' & F').
  exists (postorder tr'). split; auto. apply (proj1 (C30_completeness_partial _ _ _ Hg' Hs' Hp' Hf' _ _ Ht' Hc _ _ Hw')). rewrite En. split; auto. split; [congruence|].
  rewrite Y'. unfold symbols in *. assert (E : map Some l = map Some (yield tr)) by congruence. rewrite <- E. exact Hl'.
Qed.
Print Assumptions C76_kept_partial.

(** The same for texts, if there are no new literals and regexes. *)
Theorem C76_text_partial :
  forall ast g ast' g', grammar_from_ast ast = Ok g -> grammar_from_ast ast' = Ok g' -> extends ast ast' -> same_terminals ast ast' ->
  well_formed g -> well_formed g' ->
  forall parse_regex hash l hash' l', lalr_new parse_regex hash g = Ok l -> lalr_new parse_regex hash' g' = Ok l' -> closed g' (l_tables l') ->
  forall input ps, lalr_parse l input = Ok ps -> exists ps', lalr_parse l' input = Ok ps' /\ Forall2 (same_rule g g') ps ps'.
Proof.
  intros ast g ast' g' Hg Hg' HE Hn Hw Hw' parse hash l hash' l' Hl Hl' Hc input ps. pose proof Hw as [[_ Hf] _]. pose proof Hw' as [[_ Hf'] _].
  destruct (tok_map g g' (extend_tokens _ _ _ _ HE Hg Hg')) as (K & K' & Hb & HK).
  unfold lalr_new in Hl, Hl'. rewrite (extend_lexer _ _ _ _ HE Hg Hg' K parse Hn Hf Hf' HK) in Hl'.
  destruct (from_grammar parse g) as [L| |] eqn:EL; cbn [bind rmap] in Hl, Hl'; try discriminate.
  destruct (make_tables hash g) as [t| |] eqn:Et; cbn [bind] in Hl; try discriminate.
  destruct (make_tables hash' g') as [t'| |] eqn:Et'; cbn [bind] in Hl'; try discriminate.
  injection Hl as <-. injection Hl' as <-. unfold lalr_parse. cbn [l_lexer l_grammar l_tables] in *.
  destruct (grammar_from_ast_ok _ _ Hg) as (s & _ & W & _). destruct (grammar_from_ast_ok _ _ Hg') as (s' & _ & W' & _).
  assert (K0 : K 0 = 0).
  { eapply (tok_first g'); [apply HK; apply (plain_tok _ _ Hg Hf)|apply (plain_tok _ _ Hg' Hf')]; [destruct (wg_tokens _ _ W) as (? & -> & _)|destruct (wg_tokens _ _ W') as (? & -> & _)]; reflexivity. }
  rewrite lex_map. destruct (lex L input) as [ts| |]; cbn [bind]; try discriminate.
  rewrite (convert_map K L ts K0). destruct (convert_tokens L ts) as [conv| |] eqn:Ec; cbn [bind rmap]; try discriminate.
  rewrite map_map. cbn [snd]. rewrite <- (map_map snd K). intros Hps.
  destruct (convert_characterised parse ast g L Hg EL ts) as [H1 H2].
  assert (Hdec : (forall tk, In tk ts -> In (SStr (tk_name tk)) (g_tokens g) \/ In (SReg (tk_name tk)) (g_tokens g)) \/
            (exists tk, In tk ts /\ ~ In (SStr (tk_name tk)) (g_tokens g) /\ ~ In (SReg (tk_name tk)) (g_tokens g))).
  { clear. induction ts as [|tk ts [IH|(u & Hu & IH)]].
    - left. intros tk [].
    - destruct (in_dec ord_dec (SStr (tk_name tk)) (g_tokens g)) as [Ha|Ha]; [left; intros u [<-|Hu]; auto|].
      destruct (in_dec ord_dec (SReg (tk_name tk)) (g_tokens g)) as [Hb|Hb]; [left; intros u [<-|Hu]; auto|].
      right. exists tk. split; [left; reflexivity|auto].
    - right. exists u. split; [right; exact Hu|exact IH]. }
  destruct Hdec as [Hd|Hd]; [|rewrite (H2 Hd) in Ec; discriminate].
  destruct (H1 Hd) as (c & Ec' & _ & Hidx). rewrite Ec in Ec'. injection Ec' as ->. unfold get_token in Hidx.
  assert (Hsy : exists sy, symbols g (map snd c) sy /\ symbols g' (map K (map snd c)) sy).
  { clear -Hidx HK Hg Hg' Hf Hf'. induction c as [|[tk k] c IH]; [exists []; split; reflexivity|]. destruct IH as (sy & A & B); [intros t0 k0 H0; apply Hidx; right; exact H0|].
    assert (E : exists x, nth_error (g_tokens g) k = Some x) by (destruct (Hidx tk k (or_introl eq_refl)) as [E|[E _]]; eauto). destruct E as [x E].
    exists (x :: sy). unfold symbols in *. cbn [map snd]. rewrite A, B, E. split; auto. f_equal. apply (HK _ _ (plain_tok _ _ Hg Hf _ _ E)). }
  destruct Hsy as (sy & Sa & Sb).
  assert (Hz : ~ In 0 (map snd c)).
  { intros Hin. apply in_map_iff in Hin as ((tk & k0) & Ek & Hin). cbn [snd] in Ek. subst k0. destruct (wg_tokens _ _ W) as (lt & Elt & _). rewrite Elt in Hidx.
    destruct (Hidx _ _ Hin) as [Hx|[Hx _]]; discriminate. }
  eapply (C76_kept_partial _ _ _ _ Hg Hg' HE Hw Hw' _ _ _ _ Et Et' Hc _ (map snd c) _ (map K (map snd c)) sy); eauto.
  - split; auto. rewrite map_app. reflexivity.
  - split; [rewrite !map_app; cbn [map snd]; rewrite K0; reflexivity|]. intros Hin. apply in_map_iff in Hin as (k & E & Hin). apply Hz.
    assert (k = 0) by (rewrite <- (bij_l _ _ Hb k), E; rewrite <- K0 at 1; apply (bij_l _ _ Hb)). congruence.
Qed.
Print Assumptions C76_text_partial.

(** False: w28 without its third alternative accepts "u c d p"; with it, tables are built as well,
    but the text is rejected. *)
Definition w76 : list aprod :=
  [PS 83 [[T 117; V 65; T 112]; [T 118; V 65; T 113]]; P 65 [[T 99; V 68]]; P 66 [[T 102; V 68]]; P 68 [[T 100]]].
Theorem C76_kept_refuted :
  exists ast ast' g g' t t' tokens w tokens' w' l ps, tables_of ast g t /\ tables_of ast' g' t' /\ extends ast ast' /\ well_formed g /\ well_formed g' /\
    ended tokens w /\ ended tokens' w' /\ symbols g w l /\ symbols g' w' l /\
    parse_impl g t tokens = Ok ps /\ parse_impl g' t' tokens' = Panic PInvalidToken.
Proof.
  exists w76, w28. witness w76 Eg Et g t. witness w28 Eg' Et' g' t'.
  exists g, g', t, t'.
  set (idx := fun (g : grammar) (c : N) => match get_token_idx g (SStr [c]) with Some k => k | None => 0 end).
  exists (map (idx g) [117; 99; 100; 112]%N ++ [0]), (map (idx g) [117; 99; 100; 112]%N), (map (idx g') [117; 99; 100; 112]%N ++ [0]), (map (idx g') [117; 99; 100; 112]%N),
    (map (fun c => SStr [c]) [117; 99; 100; 112]%N). eexists.
  split; [apply tables_of_any; auto|]. split; [apply tables_of_any; auto|]. split.
  { split; [|do 2 eexists; split; [reflexivity|]; split; reflexivity]. intros e He. vm_compute in He. vm_compute. intuition. }
  split; [wf_ok Eg|]. split; [wf_ok Eg'|]. subst idx. open Eg Et. open Eg' Et'.
  split; [split; [reflexivity|vm_compute; intuition discriminate]|]. split; [split; [reflexivity|vm_compute; intuition discriminate]|].
  split; [compute_ok|]. split; [compute_ok|]. split; compute_ok.
Qed.
Print Assumptions C76_kept_refuted.

(** And of texts, by a new literal: S -> w, with the regex w for words, accepts "if"; with
    S -> "if" w as well it does not. *)
Definition w76' : list aprod := [PS 83 [[IReg [119]%N]; [IStr [105; 102]%N; IReg [119]%N]]].
Theorem C76_text_refuted :
  exists ast ast' g g' l l' input ps, extends ast ast' /\ grammar_from_ast ast = Ok g /\ grammar_from_ast ast' = Ok g' /\ well_formed g /\ well_formed g' /\
    lalr_new re62 ehash g = Ok l /\ lalr_new re62 ehash g' = Ok l' /\ closed g' (l_tables l') /\
    lalr_parse l input = Ok ps /\ lalr_parse l' input = Panic PInvalidToken.
Proof.
  exists w62, w76'. destruct (grammar_from_ast w62) as [g| |] eqn:Eg; [|vm_compute in Eg; discriminate Eg..].
  destruct (grammar_from_ast w76') as [g'| |] eqn:Eg'; [|vm_compute in Eg'; discriminate Eg'..].
  destruct (lalr_new re62 ehash g) as [l| |] eqn:El; [|vm_compute in Eg; injection Eg as <-; vm_compute in El; discriminate El..].
  destruct (lalr_new re62 ehash g') as [l'| |] eqn:El'; [|vm_compute in Eg'; injection Eg' as <-; vm_compute in El'; discriminate El'..].
  exists g, g', l, l', [105; 102]%N. eexists. split.
  { split; [|do 2 eexists; split; [reflexivity|]; split; reflexivity]. intros e He. vm_compute in He. vm_compute. intuition. }
  split; auto. split; auto. split; [wf_ok Eg|]. split; [wf_ok Eg'|]. split; auto. split; auto. open Eg El. open Eg' El'.
  split; [apply closed_b_ok; compute_ok|]. split; compute_ok.
Qed.
Print Assumptions C76_text_refuted.

(** The hypotheses are met: E -> E "+" T | T; T -> x, and with T -> "+" T as well. *)
Definition w76_expr : list aprod := [PS 69 [[V 69; T 43; V 84]; [V 84]]; P 84 [[T 120]; [T 43; V 84]]].
Example C76_nonvacuous : exists g g' l l' ps, extends w_expr w76_expr /\ same_terminals w_expr w76_expr /\ grammar_from_ast w_expr = Ok g /\ grammar_from_ast w76_expr = Ok g' /\
  well_formed g /\ well_formed g' /\ lalr_new re62 ehash g = Ok l /\ lalr_new re62 ehash g' = Ok l' /\ closed g' (l_tables l') /\
  lalr_parse l [120; 43; 120]%N = Ok ps /\ lalr_parse l' [120; 43; 120]%N = Ok ps /\
  lalr_parse l [120; 43; 43; 120]%N = Panic PInvalidToken /\ exists ps', lalr_parse l' [120; 43; 43; 120]%N = Ok ps'.
Proof.
  destruct (grammar_from_ast w_expr) as [g| |] eqn:Eg; [|vm_compute in Eg; discriminate Eg..].
  destruct (grammar_from_ast w76_expr) as [g'| |] eqn:Eg'; [|vm_compute in Eg'; discriminate Eg'..].
  destruct (lalr_new re62 ehash g) as [l| |] eqn:El; [|vm_compute in Eg; injection Eg as <-; vm_compute in El; discriminate El..].
  destruct (lalr_new re62 ehash g') as [l'| |] eqn:El'; [|vm_compute in Eg'; injection Eg' as <-; vm_compute in El'; discriminate El'..].
  exists g, g', l, l'. eexists. split.
  { split; [|do 2 eexists; split; [reflexivity|]; split; reflexivity]. intros e He. vm_compute in He. vm_compute. intuition. }
  split.
  { intros A b x Hb Hx Ht. assert (Hx' : x = Grammar.SStr [43]%N \/ x = Grammar.SStr [120]%N).
    { vm_compute in Hb. destruct Hb as [E|[E|[E|[E|[]]]]]; injection E as <- <-; cbn in Hx; intuition; subst; try (destruct (Ht _ eq_refl)). }
    destruct Hx' as [->| ->]; do 2 eexists; (split; [vm_compute|]); [left; reflexivity|right; left; reflexivity|do 2 right; left; reflexivity|left; reflexivity]. }
  split; auto. split; auto. split; [wf_ok Eg|]. split; [wf_ok Eg'|]. split; auto. split; auto. open Eg El. open Eg' El'.
  split; [apply closed_b_ok; compute_ok|]. split; [compute_ok|]. split; [compute_ok|]. split; [compute_ok|]. eexists. compute_ok.
Qed.
