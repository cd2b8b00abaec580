(** Property C69: writing a sentence down and reading it back. *)
From Coq Require Import Ascii String.
From Verif Require Import Base Text Regex Nfa Dfa Lex LexSpec LexLoop LexProofs Utf8Spec Utf8Proofs Grammar GrammarSpec GrammarProofs First Item Table TableProofs TableFacts LexGrammar LexGrammarProofs
  Parse ParseSpec Auto ParseProofs ParseTerm TreeFacts PropsParse Lalr EndSpec EndProofs NfaLive PropsGrammar PropsEnd Witness PrintSpec
  LexGen LexGenProofs LexGenLexer TsText TsTextFacts TsScan TsTables TsModule TsModuleFacts ParseGenSpec ParseGen ParseGenProofs ParseGenFile ParseGenEmit ParseGenCheck PropsLexGen PropsParseGen Lisp
  TsUtil TsLex TsLexProofs PropsTsLex TsParse TsParseSpec TsParseProofs PropsTsParse
  GrammarFile GrammarFileSpec GrammarFileProofs PropsGrammarFile PropsWhole.
Local Open Scope list_scope.

Local Ltac compute_ok := vm_compute; reflexivity.

Section Read.
  Variable parse : str -> option hir.
  Variable g : grammar.
  Hypothesis Hw : no_white_texts parse g.

  Lemma sym_white u i c : is_sym parse g u i -> In c u -> ~ white c.
  Proof. intros ((x & Hx & Hl) & _). eapply Hw; eauto using nth_error_In. Qed.
  Lemma begins_white u c : begins parse g u -> In c u -> ~ white c.
  Proof. intros (x & v & Hx & Hl) Hc. eapply Hw; eauto. apply in_or_app. auto. Qed.

  Lemma skip_white w (Q : list (nat * nat * list N) -> Prop) s r : Forall white w ->
    (forall pos, exists ts, Tokenize (begins parse g) (is_sym parse g) pos s ts r /\ Q ts) ->
    forall pos, exists ts, Tokenize (begins parse g) (is_sym parse g) pos (w ++ s) ts r /\ Q ts.
  Proof using Hw.
    intros H HT. induction H as [|c w Hc H IH]; intros pos; [apply HT|].
    destruct (IH (S pos)) as (ts & HT' & E). exists ts. split; auto. cbn [app]. apply TkSkip; auto.
    - split; auto. intros Hb. apply (begins_white _ c Hb); [left; auto|auto].
    - intros u v i Eu Hu Hs. destruct u as [|c' u]; [congruence|]. injection Eu as <- _. apply (sym_white _ _ c Hs); [left; auto|auto].
  Qed.

  Lemma read_printed l s : Printed l s -> Forall (fun xu => own_text parse g (fst xu) (snd xu)) l ->
    forall pos, exists ts, Tokenize (begins parse g) (is_sym parse g) pos s ts [] /\
      Forall2 (fun xu x => nth_error (lex_syms g) (snd (fst x)) = Some (fst xu) /\ snd x = snd xu) l ts.
  Proof using Hw.
    induction 1 as [w H|w x u H|w x u c l s H Hc HP IH]; intros HF.
    - rewrite <- (app_nil_r w). apply skip_white; auto. intros pos. exists []. split; constructor.
    - apply skip_white; auto. intros pos. inversion HF as [|? ? (Hu & i & Hx & Hi) _]; subst. cbn [fst snd] in *.
      exists [(pos, i, u)]. split; [|repeat constructor; auto]. rewrite <- (app_nil_r u) at 1. apply TkLast.
      + split; auto. split; auto. intros u' v' i' E _. rewrite app_nil_r in E. rewrite E, app_length. lia.
      + rewrite app_nil_r. destruct Hi as ((y & Hy & Hl) & _). exists y, []. rewrite app_nil_r. split; eauto using nth_error_In.
    - apply skip_white; auto. intros pos. inversion HF as [|? ? (Hu & i & Hx & Hi) HF']; subst. cbn [fst snd] in *.
      destruct (skip_white [c] (fun ts => Forall2 (fun xu x => nth_error (lex_syms g) (snd (fst x)) = Some (fst xu) /\ snd x = snd xu) l ts) s [] ltac:(auto)
        (IH HF') (pos + length u)) as (ts & HT & HE).
      exists ((pos, i, u) :: ts). split; [|constructor; auto]. apply TkTok; auto.
      + split; auto. split; auto. intros u' v' i' E Hs'. destruct (Nat.le_gt_cases (length u') (length u)) as [|Hlt]; auto. exfalso.
        apply (sym_white _ _ c Hs'); auto. assert (Ec : nth_error u' (length u) = Some c).
        { rewrite <- (nth_error_app1 u' v') by auto. rewrite <- E, nth_error_app2, Nat.sub_diag by lia. reflexivity. }
        eauto using nth_error_In.
      + intros Hb. apply (begins_white _ c Hb); auto. apply in_or_app. right. left. auto.
  Qed.

  Lemma sym_det u i j : is_sym parse g u i -> is_sym parse g u j -> i = j.
  Proof.
    intros [(x & Hx & Hvx) Hi] [(y & Hy & Hvy) Hj].
    destruct (Nat.lt_trichotomy i j) as [H|[H|H]]; auto; exfalso; [exact (Hj i x H Hx Hvx)|exact (Hi j y H Hy Hvy)].
  Qed.

  (** However the printed text is read, it is read as what was printed. *)
  Lemma reads_printed l s ts r syms : Printed l s -> Forall (fun xu => own_text parse g (fst xu) (snd xu)) l ->
    Tokenize (begins parse g) (is_sym parse g) 0 s ts r -> Forall2 (fun x s => nth_error (lex_syms g) (snd (fst x)) = Some s) ts syms ->
    r = [] /\ syms = map fst l /\ map snd ts = map snd l.
  Proof using Hw.
    intros HP HF HT HS. destruct (read_printed l s HP HF 0) as (ts' & HT' & HE).
    destruct (tokenize_det _ _ sym_det _ _ _ _ _ _ HT HT') as [<- <-]. split; auto.
    clear HP HF HT HT'. revert syms HS. induction HE as [|xu x l ts [H1 H2] _ IH]; intros syms HS; inversion HS as [|? y ? syms' Hy HS']; subst; auto.
    destruct (IH _ HS') as [E1 E2]. cbn [map]. rewrite E2, H2, E1. split; auto. f_equal. congruence.
  Qed.
End Read.

(** The leaves of any parse tree, written with white space between them, are parsed back to that
    tree, if the transitions it needs are in the tables, in particular if none is missing. *)
Theorem C69_print_parse_partial :
  forall parse hash ast g st l hs, file_ast ast -> grammar_from_ast ast = Ok g -> find ap_start ast = Some st ->
  lalr_new parse hash g = Ok l -> no_clash g ->
  Forall2 (fun x h => sym_hir parse x = Some h) (lex_syms g) hs -> split_refines hs -> Forall productive hs ->
  no_white_texts parse g ->
  forall leaves s, Forall (fun xu => own_text parse g (fst xu) (snd xu)) leaves -> Printed leaves s -> ascii s ->
  (forall tr, tree_ok g tr -> root g tr = Some (SNon (ap_name st)) -> yield tr = map fst leaves ->
     closed g (l_tables l) \/ (exists j, moves g (l_tables l) 0 tr j) -> lalr_parse l s = Ok (postorder tr)) /\
  (forall ps, lalr_parse l s = Ok ps -> exists tr, tree_ok g tr /\ root g tr = Some (SNon (ap_name st)) /\ yield tr = map fst leaves /\ ps = postorder tr).
Proof.
  intros parse hash ast g st l hs Hf Hg Hst Hl Hno Hhs Hsd Hpr Hnw leaves s Hown HP Ha.
  destruct (C36_accepts_iff_partial parse hash ast g st l hs Hf Hg Hst Hl Hno Hhs Hsd Hpr s) as (ts & r & syms & HT & HF & _ & Hacc & Hcl).
  destruct (reads_printed parse g Hnw leaves s ts r syms HP Hown HT HF) as (-> & -> & Hu).
  assert (Hsl : sliced s (map drop_idx ts)) by (eapply ascii_sliced; eauto using tokenize_layout).
  split.
  - intros tr H1 H2 H3 [H|[j Hm]]; [apply Hcl; auto|]. apply Hacc. split; auto. exists tr, j. auto.
  - intros ps E. apply Hacc in E as (_ & tr & j & H1 & H2 & H3 & _ & H4). exists tr. auto.
Qed.
Print Assumptions C69_print_parse_partial.

Lemma printed_all leaves : exists s, Printed leaves s /\ (Forall (fun xu => ascii (snd xu)) leaves -> ascii s).
Proof.
  induction leaves as [|[x u] l (s & H & Ha)]; [exists []; split; [constructor; constructor|intros _; constructor]|].
  exists ([] ++ u ++ 32%N :: s). split; [apply PrCons; [constructor|right; reflexivity|exact H]|].
  intros HF. inversion HF as [|? ? H1 H2]; subst. cbn [app]. apply Forall_app. split; [exact H1|]. constructor; [reflexivity|exact (Ha H2)].
Qed.

(** A parse tree is the answer for some text exactly when each of its leaves has a text of its own. *)
Theorem C69_written_iff_partial :
  forall parse hash ast g st l hs, file_ast ast -> grammar_from_ast ast = Ok g -> find ap_start ast = Some st ->
  lalr_new parse hash g = Ok l -> no_clash g ->
  Forall2 (fun x h => sym_hir parse x = Some h) (lex_syms g) hs -> split_refines hs -> Forall productive hs ->
  no_white_texts parse g -> closed g (l_tables l) ->
  forall tr, tree_ok g tr -> root g tr = Some (SNon (ap_name st)) ->
  ((exists s, ascii s /\ lalr_parse l s = Ok (postorder tr)) <->
   forall x, In x (yield tr) -> exists u, ascii u /\ own_text parse g x u).
Proof.
  intros parse hash ast g st l hs Hf Hg Hst Hl Hno Hhs Hsd Hpr Hnw Hcl tr H1 H2. split.
  - intros (s & Ha & E) x Hx.
    destruct (C36_accepts_iff_partial parse hash ast g st l hs Hf Hg Hst Hl Hno Hhs Hsd Hpr s) as (ts & r & syms & HT & HF & _ & Hacc & _).
    apply Hacc in E as (_ & tr' & j & T1 & T2 & T3 & _ & E).
    assert (tr = tr') as <- by (eapply post_inj; eauto; congruence). rewrite T3 in Hx.
    assert (Ht : exists p i u, In (p, i, u) ts /\ nth_error (lex_syms g) i = Some x).
    { clear - HF Hx. induction HF as [|[[p i] u] y ts syms Hy _ IH]; [destruct Hx|]. destruct Hx as [<-|Hx].
      - exists p, i, u. split; [left; auto|exact Hy].
      - destruct (IH Hx) as (p' & i' & u' & H & H'). exists p', i', u'. split; [right; auto|auto]. }
    destruct Ht as (p & i & u & Hu & Hi). destruct (tokenize_longest _ _ _ _ _ _ HT p i u Hu) as (a & b & -> & _ & (Hne & Hs & _)).
    exists u. split; [|split; eauto]. apply Forall_app in Ha as [_ Ha]. apply Forall_app in Ha as [Ha _]. exact Ha.
  - intros H. assert (HL : exists leaves, map fst leaves = yield tr /\ Forall (fun xu => own_text parse g (fst xu) (snd xu)) leaves /\ Forall (fun xu => ascii (snd xu)) leaves).
    { revert H. generalize (yield tr) as l0. clear. induction l0 as [|x l0 IH]; intros H; [exists []; repeat constructor|].
      destruct IH as (leaves & E & F1 & F2); [intros; apply H; right; auto|]. destruct (H x (or_introl eq_refl)) as (u & Ha & Ho).
      exists ((x, u) :: leaves). cbn [map fst]. rewrite E. repeat split; constructor; auto. }
    destruct HL as (leaves & E & F1 & F2). destruct (printed_all leaves) as (s & HP & Ha). exists s. split; auto.
    destruct (C69_print_parse_partial parse hash ast g st l hs Hf Hg Hst Hl Hno Hhs Hsd Hpr Hnw leaves s F1 HP (Ha F2)) as [H' _]. auto.
Qed.
Print Assumptions C69_written_iff_partial.

(** The same for the type-level lexer and parser: the type of the printed text is the value of the
    tree over the texts printed, if less than 50 tokens and reductions are needed. *)
Theorem C69_print_type_partial :
  forall parse hash text ast g l st hs, file_says text ast -> grammar_from_ast ast = Ok g -> find ap_start ast = Some st -> lalr_new parse hash g = Ok l ->
  quotes_ok g -> codes_ok ast -> kinds_distinct g -> (forall s, named ast (IStr s) -> unq 39 s = Some s) ->
  Forall2 (fun x h => sym_hir parse x = Some h) (lex_syms g) hs -> split_refines hs -> Forall productive hs ->
  no_white_texts parse g ->
  exists ltext T ptext P, lex_generate (l_lexer l) = Ok ltext /\ ReadLex ltext T /\ parse_generate ast l = Ok ptext /\ ReadParse ptext P /\
  forall V size code has_type regex_holds chars leaves s, fits size (l_lexer l) -> own_codes chars ->
  (forall c, In c s -> map_get c chars <> None /\ (c <= N.of_nat size)%N) -> length s <= size ->
  well_typed code has_type regex_holds ast -> (forall r v, named ast (IReg r) -> regex_holds (Some (TLit v)) = true) ->
  Forall (fun xu => own_text parse g (fst xu) (snd xu)) leaves -> Printed leaves s ->
  forall tr, tree_ok g tr -> root g tr = Some (SNon (ap_name st)) -> yield tr = map fst leaves ->
  closed g (l_tables l) \/ (exists j, moves g (l_tables l) 0 tr j) -> length leaves + length (postorder tr) < 50 ->
  exists us v, Forall2 (fun xu y => exists n, token_kind (fst xu) n /\ y = TTok n (Some (TLit (snd xu)))) leaves us /\
    Denotes V g code tr us (SymNon (ap_name st) v) /\
    ts_pipeline size chars T P (EmitProduction V size ast code has_type regex_holds) s = Some (PStack [SymNon (ap_name st) v]).
Proof.
  intros parse hash text ast g l st hs Hfs Hg Hst Hl Hq Hc Hk Hlit Hhs Hsd Hpr Hnw.
  destruct (C57_accepts_iff_partial parse hash text ast g l st hs Hfs Hg Hst Hl Hq Hc Hk Hlit Hhs Hsd Hpr) as (ltext & T & ptext & P & E1 & E2 & E3 & E4 & H).
  exists ltext, T, ptext, P. split; auto. split; auto. split; auto. split; auto.
  intros V size code has_type regex_holds chars leaves s Hfit Hown Hin Hlen Hwt Hreg HF HP tr H1 H2 H3 Hm Hlt.
  destruct (H V size code has_type regex_holds chars s Hfit Hown Hin Hlen Hwt Hreg) as (ts & r & syms & HT & HS & _ & _ & HX).
  destruct (reads_printed parse g Hnw leaves s ts r syms HP HF HT HS) as (-> & -> & Hu).
  destruct (HX (or_introl eq_refl) tr H1 H2 H3 Hm) as (toks & us & v & X1 & X2 & X3 & X4 & X5); [rewrite map_length; exact Hlt|].
  exists us, v. split; [|auto].
  assert (E : map snd toks = map snd leaves).
  { rewrite <- Hu. apply (f_equal (map snd)) in X1. unfold toks_texts in X1. rewrite !map_map in X1. exact X1. }
  clear - X2 X3 E. unfold toks_syms in X2. revert leaves X2 E.
  induction X3 as [|[[p x] u] y toks us Hy _ IH]; intros [|[x' u'] leaves] X2 E; try discriminate; constructor.
  - cbn [map fst snd] in *. injection X2 as <- _. injection E as <- _. exact Hy.
  - apply IH; [injection X2 as _ X2; exact X2|injection E as _ E; exact E].
Qed.
Print Assumptions C69_print_type_partial.

(** ** Counterexamples *)

Definition one_regex (name : string) (h : hir) (r : str) : option hir := if eqb r (tx name) then Some h else None.
(** A literal that hides a regex; literals that run together; a literal with a blank in it; and one
    that is not ASCII. *)
Definition hidden : list aprod := [one "S" [[IStr (tx "a")]; [IReg (tx "[a]"); IStr (tx "b")]] true].
Definition together : list aprod := [one "S" [[IStr (tx "a"); IStr (tx "a")]; [IStr (tx "aa")]] true].
Definition blank : list aprod := [one "S" [[IStr (tx "a"); IStr (tx "b")]; [IStr (tx "a b")]] true].
Definition accent : list aprod := [one "S" [[IStr [233]%N]] true].

Local Ltac lwitness parse w Eg El :=
  destruct (grammar_from_ast w) as [g| |] eqn:Eg; [|vm_compute in Eg; discriminate Eg..];
  destruct (lalr_new parse ehash g) as [l| |] eqn:El; [|vm_compute in Eg; injection Eg as <-; vm_compute in El; discriminate El..].
Local Ltac lopen Eg El := vm_compute in Eg; injection Eg as <-; vm_compute in El; injection El as <-.
Local Ltac file_ok := apply file_ast_b_ok; compute_ok.

Definition printable (parse : str -> option hir) (ast : list aprod) (g : grammar) (l : lalr) (st : aprod) (tr : tree) (leaves : list (sym * list N)) : Prop :=
  file_ast ast /\ grammar_from_ast ast = Ok g /\ find ap_start ast = Some st /\ lalr_new parse ehash g = Ok l /\ no_clash g /\ closed g (l_tables l) /\
  tree_ok g tr /\ root g tr = Some (SNon (ap_name st)) /\ yield tr = map fst leaves /\ Forall (fun xu => sym_lang parse (fst xu) (snd xu) /\ snd xu <> []) leaves.

Lemma no_white_ok parse g hs : Forall2 (fun x h => sym_hir parse x = Some h) (lex_syms g) hs ->
  forallb (fun r => negb ((fst r <=? 10) && (10 <? snd r)) && negb ((fst r <=? 32) && (32 <? snd r)))%N (flat_map LexSpec.written hs) = true -> no_white_texts parse g.
Proof.
  intros HF H x u c Hx Hl Hc Hwc. rewrite forallb_forall in H.
  assert (Hh : exists h, In h hs /\ sym_hir parse x = Some h).
  { clear - HF Hx. induction HF as [|y h l hs Hy _ IH]; [destruct Hx|]. destruct Hx as [<-|Hx]; [exists h; split; [left|]; auto|].
    destruct (IH Hx) as (h' & H1 & H2). exists h'. split; [right|]; auto. }
  destruct Hh as (h & Hh & Es). apply (sym_hir_lang _ _ _ Es) in Hl. destruct (lang_chars h u Hl c Hc) as (m & Hm & Hcov).
  apply written_label in Hm. specialize (H m). unfold covers in Hcov.
  assert (Hin : In m (flat_map LexSpec.written hs)) by (apply in_flat_map; eauto). specialize (H Hin).
  destruct Hwc as [-> | ->]; apply andb_true_iff in H as [H1 H2]; rewrite negb_true_iff, andb_false_iff, N.leb_gt, N.ltb_ge in H1, H2; lia.
Qed.
(** Literals are their own texts if none is listed twice. *)
Lemma own_lit parse g i u : nth_error (lex_syms g) i = Some (Grammar.SStr u) -> u <> [] ->
  (forall j, j < i -> exists v, nth_error (lex_syms g) j = Some (Grammar.SStr v) /\ v <> u) -> own_text parse g (Grammar.SStr u) u.
Proof.
  intros Hi Hu Hj. split; auto. exists i. split; auto. split; [exists (Grammar.SStr u); split; [auto|reflexivity]|].
  intros j x Hlt Hx Hl. destruct (Hj j Hlt) as (v & Hv & Hne). rewrite Hx in Hv. injection Hv as ->. cbn in Hl. congruence.
Qed.
Local Ltac lits := repeat match goal with
  | |- Forall _ (_ :: _) => apply Forall_cons
  | |- Forall _ [] => apply Forall_nil
  | |- own_text _ _ _ _ => idtac
  end.
Local Ltac own n := apply (own_lit _ _ n); [reflexivity|discriminate|intros j Hj; repeat (destruct j as [|j]; [eexists; split; [reflexivity|discriminate]|]); lia].

(** False in general: a sentence that no text is parsed as; a sentence whose texts are parsed as
    another one if there is nothing between them; one for which blanks do not help; and one that
    makes the library panic. *)
Theorem C69_print_refuted :
  (exists parse ast g l st tr leaves, printable parse ast g l st tr leaves /\ no_white_texts parse g /\
     forall s, ascii s -> lalr_parse l s <> Ok (postorder tr)) /\
  (exists parse ast g l st tr leaves, printable parse ast g l st tr leaves /\ no_white_texts parse g /\
     Forall (fun xu => own_text parse g (fst xu) (snd xu)) leaves /\ exists ps, lalr_parse l (concat (map snd leaves)) = Ok ps /\ ps <> postorder tr) /\
  (exists parse ast g l st tr leaves s, printable parse ast g l st tr leaves /\ Printed leaves s /\ ascii s /\
     Forall (fun xu => own_text parse g (fst xu) (snd xu)) leaves /\ exists ps, lalr_parse l s = Ok ps /\ ps <> postorder tr) /\
  (exists parse ast g l st tr leaves, printable parse ast g l st tr leaves /\ no_white_texts parse g /\
     Forall (fun xu => own_text parse g (fst xu) (snd xu)) leaves /\ exists s, Printed leaves s /\ lalr_parse l s = Panic PSlice).
Proof.
  split; [|split; [|split]].
  - set (P := one_regex "[a]" (HClass [(97, 97)]%N)). exists P, hidden. lwitness P hidden Eg El.
    destruct (find ap_start hidden) as [st|] eqn:Es; [|discriminate Es].
    set (tr := Node 2 [Leaf (SReg (tx "[a]")); Leaf (Grammar.SStr (tx "b"))]).
    exists g, l, st, tr, [(SReg (tx "[a]"), tx "a"); (Grammar.SStr (tx "b"), tx "b")].
    assert (Hf : file_ast hidden) by file_ok.
    assert (Hp : printable P hidden g l st tr [(SReg (tx "[a]"), tx "a"); (Grammar.SStr (tx "b"), tx "b")]).
    { unfold printable. split; auto. split; auto. split; auto. split; auto. injection Es as <-. lopen Eg El.
      split; [intros s [H1 H2]; cbn in H1, H2; intuition congruence|]. split; [apply ParseCheck.closed_b_ok; compute_ok|].
      split; [apply ParseCheck.tree_ok_b_ok; compute_ok|]. split; [reflexivity|]. split; [reflexivity|].
      repeat constructor; try discriminate. exists (HClass [(97, 97)]%N). split; [reflexivity|]. apply (L_class _ 97 97); cbn; auto; lia. }
    split; auto. destruct Hp as (P1 & P2 & P3 & P4 & P5 & P6 & P7 & P8 & P9 & P10).
    set (hs := [lit_hir (tx "a"); lit_hir (tx "b"); HClass [(97, 97)]%N]).
    assert (Hhs : Forall2 (fun x h => sym_hir P x = Some h) (lex_syms g) hs) by (lopen Eg El; repeat constructor).
    assert (Hnw : no_white_texts P g) by (apply (no_white_ok _ _ hs Hhs); compute_ok).
    split; auto. intros s Ha E.
    assert (Hsd : split_refines hs) by (apply split_b_ok; compute_ok).
    assert (Hpr : Forall productive hs) by (repeat (constructor; [apply productive_hb_ok; compute_ok|]); constructor).
    destruct (C69_written_iff_partial P ehash hidden g st l hs P1 P2 P3 P4 P5 Hhs Hsd Hpr Hnw P6 tr P7 P8) as [H _].
    destruct (H (ex_intro _ s (conj Ha E)) (SReg (tx "[a]"))) as (u & _ & Hu & i & Hi & (y & Hy & Hl) & Hmin); [left; reflexivity|].
    clear - Hi Hy Hl Hmin Eg. vm_compute in Eg. injection Eg as <-. rewrite Hi in Hy. injection Hy as <-. destruct Hl as (h & Eh & Hl). injection Eh as <-.
    inversion Hl as [| | rs lo hi c Hin Hc | | | | | | | | | |]; subst. destruct Hin as [E|[]]. injection E as <- <-.
    assert (c = 97%N) as -> by lia. destruct i as [|i]; [discriminate Hi|].
    apply (Hmin 0 (Grammar.SStr (tx "a"))); [lia|reflexivity|reflexivity].
  - exists no_regex, together. lwitness no_regex together Eg El. destruct (find ap_start together) as [st|] eqn:Es; [|discriminate Es].
    exists g, l, st, (Node 1 [Leaf (Grammar.SStr (tx "a")); Leaf (Grammar.SStr (tx "a"))]), [(Grammar.SStr (tx "a"), tx "a"); (Grammar.SStr (tx "a"), tx "a")].
    split; [|split; [|split]].
    + split; [file_ok|]. split; auto. split; auto. split; auto. injection Es as <-. lopen Eg El.
      split; [intros s [H1 H2]; cbn in H1, H2; intuition congruence|]. split; [apply ParseCheck.closed_b_ok; compute_ok|].
      split; [apply ParseCheck.tree_ok_b_ok; compute_ok|]. split; [reflexivity|]. split; [reflexivity|]. repeat constructor; discriminate.
    + apply (no_white_ok _ _ [lit_hir (tx "a"); lit_hir (tx "aa")]); [lopen Eg El; repeat constructor|compute_ok].
    + lopen Eg El. lits; own 0.
    + lopen Eg El. eexists. split; [compute_ok|]. vm_compute. discriminate.
  - exists no_regex, blank. lwitness no_regex blank Eg El. destruct (find ap_start blank) as [st|] eqn:Es; [|discriminate Es].
    exists g, l, st, (Node 1 [Leaf (Grammar.SStr (tx "a")); Leaf (Grammar.SStr (tx "b"))]), [(Grammar.SStr (tx "a"), tx "a"); (Grammar.SStr (tx "b"), tx "b")], (tx "a b").
    split; [|split; [|split; [|split]]].
    + split; [file_ok|]. split; auto. split; auto. split; auto. injection Es as <-. lopen Eg El.
      split; [intros s [H1 H2]; cbn in H1, H2; intuition congruence|]. split; [apply ParseCheck.closed_b_ok; compute_ok|].
      split; [apply ParseCheck.tree_ok_b_ok; compute_ok|]. split; [reflexivity|]. split; [reflexivity|]. repeat constructor; discriminate.
    + apply (PrCons [] _ (tx "a") 32 [(Grammar.SStr (tx "b"), tx "b")] (tx "b")); [constructor|right; auto|]. apply (PrLast [] _ (tx "b")). constructor.
    + repeat constructor.
    + lopen Eg El. lits; [own 0|own 2].
    + lopen Eg El. eexists. split; [compute_ok|]. vm_compute. discriminate.
  - exists no_regex, accent. lwitness no_regex accent Eg El. destruct (find ap_start accent) as [st|] eqn:Es; [|discriminate Es].
    exists g, l, st, (Node 1 [Leaf (Grammar.SStr [233]%N)]), [(Grammar.SStr [233]%N, [233]%N)].
    split; [|split; [|split]].
    + split; [file_ok|]. split; auto. split; auto. split; auto. injection Es as <-. lopen Eg El.
      split; [intros s [H1 H2]; cbn in H1, H2; intuition congruence|]. split; [apply ParseCheck.closed_b_ok; compute_ok|].
      split; [apply ParseCheck.tree_ok_b_ok; compute_ok|]. split; [reflexivity|]. split; [reflexivity|]. repeat constructor; discriminate.
    + apply (no_white_ok _ _ [lit_hir [233]%N]); [lopen Eg El; repeat constructor|compute_ok].
    + lopen Eg El. lits; own 0.
    + exists [233]%N. split; [apply (PrLast [] _ [233]%N); constructor|]. lopen Eg El. compute_ok.
Qed.
Print Assumptions C69_print_refuted.

(** The committed grammar: the list (add 12) written with blanks, or lines, between its parts. *)
Example C69_nonvacuous :
  exists g l st hs tr leaves, file_says lisp_text lisp_ast /\ file_ast lisp_ast /\ grammar_from_ast lisp_ast = Ok g /\ find ap_start lisp_ast = Some st /\
  lalr_new lisp_regex ehash g = Ok l /\ quotes_ok g /\ codes_ok lisp_ast /\ kinds_distinct g /\ (forall s, named lisp_ast (IStr s) -> unq 39 s = Some s) /\ no_clash g /\
  fits 200 (l_lexer l) /\ own_codes abc /\ well_typed count (fun _ _ => true) (fun _ => true) lisp_ast /\
  Forall2 (fun x h => sym_hir lisp_regex x = Some h) (lex_syms g) hs /\ split_refines hs /\ Forall productive hs /\ closed g (l_tables l) /\ no_white_texts lisp_regex g /\
  tree_ok g tr /\ root g tr = Some (SNon (ap_name st)) /\ yield tr = map fst leaves /\ Forall (fun xu => own_text lisp_regex g (fst xu) (snd xu)) leaves /\
  Printed leaves (tx "( add  12 )") /\ Printed leaves (tx " ( add 12 ) ") /\ length leaves + length (postorder tr) < 50 /\
  lalr_parse l (tx "( add  12 )") = Ok (postorder tr) /\ lalr_parse l (tx " ( add 12 ) ") = Ok (postorder tr).
Proof.
  destruct C57_nonvacuous as (g & l & c & st & hs & H1 & H2 & H3 & H4 & H5 & H6 & H7 & H8 & H9 & H10 & H11 & H12 & H13 & H14 & H15 & _).
  set (tr := Node 1 [Leaf (Grammar.SStr (tx "(")); Node 2 [Node 5 [Leaf (Grammar.SStr (tx "add"))]; Node 3 [Node 6 [Leaf (SReg (tx "[1-9]+[0-9]*"))]]]; Leaf (Grammar.SStr (tx ")"))]).
  set (leaves := [(Grammar.SStr (tx "("), tx "("); (Grammar.SStr (tx "add"), tx "add"); (SReg (tx "[1-9]+[0-9]*"), tx "12"); (Grammar.SStr (tx ")"), tx ")")]).
  assert (Hf : file_ast lisp_ast) by (apply (C52_file_ast lisp_text), C51_reading, H1).
  pose proof (kinds_no_clash g H5 H7) as Hno.
  assert (Hw : forall c, (c =? 32)%N = true -> white c) by (intros ch E; right; apply N.eqb_eq, E).
  assert (HP1 : Printed leaves (tx "( add  12 )")).
  { apply (PrCons [] _ (tx "(") 32 _ (tx "add  12 )")); [constructor|auto|]. apply (PrCons [] _ (tx "add") 32 _ (tx " 12 )")); [constructor|auto|].
    apply (PrCons [32]%N _ (tx "12") 32 _ (tx ")")); [constructor; [auto|constructor]|auto|]. apply (PrLast [] _ (tx ")")). constructor. }
  assert (HP2 : Printed leaves (tx " ( add 12 ) ")).
  { apply (PrCons [32]%N _ (tx "(") 32 _ (tx "add 12 ) ")); [constructor; [auto|constructor]|auto|]. apply (PrCons [] _ (tx "add") 32 _ (tx "12 ) ")); [constructor|auto|].
    apply (PrCons [] _ (tx "12") 32 _ (tx ") ")); [constructor|auto|]. apply (PrCons [] _ (tx ")") 32 [] []); [constructor|auto|]. constructor. constructor. }
  assert (Hnw : no_white_texts lisp_regex g).
  { apply (no_white_ok _ _ hs H11). clear - H2 H11. vm_compute in H2. injection H2 as <-. repeat match goal with H : Forall2 _ _ _ |- _ => inversion H; clear H; subst end.
    repeat match goal with H : sym_hir _ _ = Some _ |- _ => vm_compute in H; injection H as <- end. compute_ok. }
  assert (Hown : Forall (fun xu => own_text lisp_regex g (fst xu) (snd xu)) leaves).
  { clear - H2. vm_compute in H2. injection H2 as <-. unfold leaves. lits; [own 0|own 2| |own 1].
    split; [discriminate|]. exists 3. split; [reflexivity|]. split.
    - exists (SReg (tx "[1-9]+[0-9]*")). split; [reflexivity|]. eexists. split; [reflexivity|].
      apply (L_concat_cons _ _ [49]%N [50]%N); [apply (L_plus _ [49]%N []); [apply (L_class _ 49 57); [left; auto|lia]|constructor]|].
      apply (L_concat_cons _ _ [50]%N []); [|constructor]. apply (L_star_cons _ [50]%N []); [apply (L_class _ 48 57); [left; auto|lia]|constructor].
    - intros j x Hj Hx Hl. destruct j as [|[|[|j]]]; [injection Hx as <-; discriminate Hl..|lia]. }
  assert (Htr : tree_ok g tr /\ root g tr = Some (SNon (ap_name st)) /\ yield tr = map fst leaves).
  { clear - H2 H3. injection H3 as <-. vm_compute in H2. injection H2 as <-. split; [apply ParseCheck.tree_ok_b_ok; compute_ok|]. split; reflexivity. }
  destruct Htr as (T1 & T2 & T3).
  exists g, l, st, hs, tr, leaves. repeat (split; [first [exact T2|assumption]|]). split; [cbn; lia|].
  split; apply (C69_print_parse_partial lisp_regex ehash lisp_ast g st l hs Hf H2 H3 H4 Hno H11 H12 H13 Hnw leaves); auto; repeat constructor.
Qed.
