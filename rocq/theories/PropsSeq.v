(** Property C88: grammars of operators some of whose operands are lists. *)
From Coq Require Import String.
From Verif Require Import Base Text Regex Nfa NfaProofs Dfa Lex LexSpec LexNfa LexProofs Grammar GrammarSpec GrammarProofs First Item ItemSpec ItemProofs ItemPlain
  GrammarCheck Table TableSpec MergeProofs TableProofs TableFacts LexGrammar LexGrammarProofs Parse ParseSpec ParseCheck TreeFacts Auto ParseProofs ParseTerm ParseCycle ParseComplete
  Report ReportSpec ReportProofs ReportExact Lalr EndSpec EndProofs Utf8Spec Utf8Proofs GrammarFile GrammarFileSpec Witness IsoSpec Iso IsoGrammar
  PropsLex PropsGrammar PropsTable PropsParse PropsMerge PropsReport PropsEnd PropsGrammarFile Lisp PropsOutcome PropsParseEnd LayerProofs SeqSpec SeqProofs.
Local Open Scope list_scope.

Local Ltac compute_ok := vm_compute; reflexivity.
Local Ltac witness w Eg Et :=
  exists w; destruct (grammar_from_ast w) as [g| |] eqn:Eg; [|vm_compute in Eg; discriminate Eg..];
  destruct (make_tables ehash g) as [t| |] eqn:Et; [|vm_compute in Eg; injection Eg as <-; vm_compute in Et; discriminate Et..];
  exists g, t.
Local Ltac open Eg Et := vm_compute in Eg; injection Eg as <-; vm_compute in Et; injection Et as <-.
Local Ltac wf_ok Eg := vm_compute in Eg; injection Eg as <-;
  split; [split; [apply eps_free_b_ok|apply eof_free_b_ok]|apply start_fresh_b_ok]; reflexivity.
Lemma sentence_of g n w tr : parse_tree_b g n w tr = true -> sentence g n w.
Proof.
  intros H. apply parse_tree_b_ok in H as (Ho & Hr & Hy). exists (yield tr). split; [exact Hy|]. split; [eapply tree_terminals; exact Ho|apply tree_derives; auto].
Qed.

Section Listfix.
  Variables (ast : list aprod) (g : grammar) (M : lang).
  Hypothesis Hg : grammar_from_ast ast = Ok g.
  Hypothesis Hf : file_ast ast.
  Hypothesis HM : listfix M ast.
  Notation E := (lg_name M).

  Lemma m_ok : lang_ok M.
  Proof using HM. destruct HM as (_ & _ & _ & H). exact H. Qed.
  Lemma m_start : exists st, find ap_start ast = Some st /\ ap_name st = E 0 0 /\ wf_grammar g (E 0 0) /\ map shape (g_prods g) = (aug_name (E 0 0), [SNon (E 0 0)]) :: ast_rules ast.
  Proof using Hg HM.
    destruct HM as (_ & _ & (st & Hs & En) & _). destruct (prods_rules _ _ Hg) as (st' & Hs' & W & EP). rewrite Hs in Hs'. injection Hs' as <-. rewrite En in *.
    exists st. auto.
  Qed.
  Lemma m_prod p pr : nth_error (g_prods g) (S p) = Some pr -> exists e, nth_error (ast_rules ast) p = Some e /\ shape pr = e.
  Proof using Hg HM.
    intros H. destruct m_start as (_ & _ & _ & _ & EP). apply (map_nth_error shape) in H. rewrite EP in H. cbn [nth_error] in H. eauto.
  Qed.
  Lemma m_wf : wf_grammar g (E 0 0).
  Proof using Hg HM. destruct m_start as (st & _ & _ & W & _). exact W. Qed.
  Lemma m_plain : plain g.
  Proof using Hg Hf. apply (file_plain _ _ Hf Hg). Qed.
  Lemma m_R p pr : nth_error (g_prods g) p = Some pr -> p <> 0 -> lrule M (p_name pr) (p_syms pr).
  Proof using Hg HM.
    intros H H0. destruct p as [|p]; [congruence|]. apply m_prod in H as (e & He & <-). destruct HM as (HA & _). apply HA. apply nth_error_In in He. exact He.
  Qed.
  Lemma m_R' A b : lrule M A b -> exists p pr, p <> 0 /\ nth_error (g_prods g) p = Some pr /\ p_name pr = A /\ p_syms pr = b.
  Proof using Hg HM.
    intros H. destruct HM as (HA & _). apply HA in H. apply In_nth_error in H as [p Hp]. destruct m_start as (_ & _ & _ & _ & EP).
    assert (G : nth_error (map shape (g_prods g)) (S p) = Some (A, b)) by (rewrite EP; exact Hp). rewrite nth_error_map in G.
    destruct (nth_error (g_prods g) (S p)) as [pr|] eqn:Hpr; [|discriminate]. cbn [option_map] in G. injection G as Es.
    exists (S p), pr. split; [lia|]. split; auto.
  Qed.
  Lemma m_U p q pp pq : p <> 0 -> q <> 0 -> nth_error (g_prods g) p = Some pp -> nth_error (g_prods g) q = Some pq -> p_name pp = p_name pq -> p_syms pp = p_syms pq -> p = q.
  Proof using Hg HM.
    intros Hp Hq H H' E1 E2. destruct p as [|p], q as [|q]; try congruence. f_equal. apply m_prod in H as (e & He & <-), H' as (e' & He' & <-).
    destruct HM as (_ & HN & _). rewrite NoDup_nth_error in HN. apply HN; [apply nth_error_Some; congruence|]. rewrite He, He'. unfold shape. congruence.
  Qed.
  Lemma m_level s i : s < lg_sorts M -> i <= lg_top M s -> exists b, lrule M (E s i) b.
  Proof using HM.
    intros Hs Hi. assert (D : i < lg_top M s \/ i = lg_top M s) by lia. destruct D as [D| ->]; [eexists; apply lr_pass; auto|].
    pose proof (mk_some _ m_ok s Hs) as Hn. destruct (lg_forms M s (lg_top M s)) as [|f l] eqn:Ef; [congruence|].
    eexists. apply (lr_form M s (lg_top M s) f). split; [auto|split; [lia|rewrite Ef; left; auto]].
  Qed.
  Lemma m_fresh s i : s < lg_sorts M -> i <= lg_top M s -> aug_name (E 0 0) <> E s i.
  Proof using Hf HM.
    intros Hs Hi H. destruct (m_level s i Hs Hi) as [b Hb]. destruct HM as (HA & _). apply HA in Hb. unfold ast_rules in Hb. apply in_flat_map in Hb as (p & Hp & Hb).
    apply in_map_iff in Hb as (bd & Eb & _). injection Eb as En _. destruct Hf as [_ HF]. destruct (HF p Hp) as [Hid _]. rewrite En in Hid. eapply ident_no_quote; [exact Hid|]. symmetry. exact H.
  Qed.
  Lemma m_fresh' n : n < ls_count M -> aug_name (E 0 0) <> ls_name M n.
  Proof using Hf HM.
    intros Hn H. pose proof (lr_one M n Hn) as Hb. destruct HM as (HA & _). apply HA in Hb. unfold ast_rules in Hb. apply in_flat_map in Hb as (p & Hp & Hb).
    apply in_map_iff in Hb as (bd & Eb & _). injection Eb as En _. destruct Hf as [_ HF]. destruct (HF p Hp) as [Hid _]. rewrite En in Hid. eapply ident_no_quote; [exact Hid|]. symmetry. exact H.
  Qed.
  Lemma m_defined : ~ undefined_name g.
  Proof using Hg Hf HM.
    intros (p & pr & B & _ & Hp & Hi & Hn). assert (Hb : exists b, lrule M B b).
    { destruct (body_names g M m_wf m_R m_ok _ _ _ Hp Hi) as [(s & i & [Hs Hin] & ->)|(n & Hnn & ->)]; [apply m_level; auto|eexists; apply lr_one, Hnn]. }
    destruct Hb as [b Hb]. destruct (m_R' _ _ Hb) as (q & pq & _ & Hq & En & _). apply Hn. exists pq. eauto using nth_error_In.
  Qed.
  Lemma m_follows : ~ left_follows g.
  Proof using Hg Hf HM.
    intros (p & pr & d & B & x & A & b & _ & Hp & Hd & Hx & Hder & _). pose proof (after_name g M m_wf m_R m_ok _ _ _ _ _ Hp Hd Hx) as Ht.
    pose proof (derives_head g _ _ _ _ Ht Hder) as H. eapply Ht. symmetry. exact H.
  Qed.
  Lemma m_closed hash t : make_tables hash g = Ok t -> closed g t.
  Proof using Hg Hf HM.
    intros Ht i p d k x (s & Hs & Hk) Hx. pose proof m_plain as [He _].
    destruct (C26_states_are_lalr _ _ Hg He _ _ Ht) as (H1 & _). destruct (H1 i s Hs) as (I & HI & Hq).
    assert (Hx' : exists p d k, I p d k /\ sym_at g p d x).
    { apply Hq in Hk as (J & _ & Hc & Hk). destruct (proj2 (Hc p d) (ex_intro _ k Hk)) as [k' Hk']. eauto. }
    pose proof (states_found g M m_wf m_fresh m_fresh' m_R m_R' m_U m_ok I x HI Hx') as F. apply (found_eq g _ _ x Hq) in F.
    destruct (C28_transitions_iff _ _ Hg He _ _ Ht i s p d k x Hs Hk Hx) as [A1 A2]. split.
    - intros Htx kx Hkx. destruct (A1 Htx) as (kx' & Hkx' & A). replace kx with kx' by (apply tok_idx in Hkx, Hkx'; congruence). apply A, F.
    - intros A E0. apply (A2 A E0), F.
  Qed.
End Listfix.

(** ** Theorems *)

(** The tables are made, whatever the hash as long as no two cores share one, and no transition is missing. *)
Theorem C88_tables :
  forall ast g M, grammar_from_ast ast = Ok g -> file_ast ast -> listfix M ast ->
  forall hash, (forall lr0, items g = Ok lr0 -> collision_free hash lr0) -> exists t, make_tables hash g = Ok t /\ closed g t.
Proof.
  intros ast g M Hg Hf HM hash Hc. pose proof (m_plain _ _ Hg Hf) as Hp. pose proof Hp as [He _].
  pose proof (m_wf _ _ _ Hg HM) as W. pose proof (m_R _ _ _ Hg HM) as R. pose proof (m_R' _ _ _ Hg HM) as R'.
  pose proof (m_U _ _ _ Hg HM) as U. pose proof (m_fresh _ _ Hf HM) as Fr. pose proof (m_fresh' _ _ Hf HM) as Fr'. pose proof (m_ok _ _ HM) as Ok.
  destruct (C81_tables_outcome _ _ Hg He hash Hc) as (_ & _ & _ & _ & G). destruct G as [t Ht].
  - exact (m_defined _ _ _ Hg Hf HM).
  - exact (m_follows _ _ _ Hg Hf HM).
  - intros I HI. apply (states_settled g M); auto.
  - exists t. split; auto. exact (m_closed _ _ _ Hg Hf HM hash t Ht).
Qed.
Print Assumptions C88_tables.

(** The tables, however they were made, accept the expressions of the first sort and nothing else; the reductions are those of a
    tree whose operators have the operands that precedence and associativity give them; there is one reading. *)
Theorem C88_parse :
  forall ast g M, grammar_from_ast ast = Ok g -> file_ast ast -> listfix M ast ->
  forall hash t, make_tables hash g = Ok t ->
  forall tokens w, ended tokens w ->
  (forall ps, parse_impl g t tokens = Ok ps <->
     exists e tr, lproper M 0 0 e /\ symbols g w (lwritten M e) /\ parse_tree g (lg_name M 0 0) w tr /\ lmeans g M tr [e] /\ ps = postorder tr) /\
  (parse_impl g t tokens = Panic PInvalidToken <-> forall e, lproper M 0 0 e -> ~ symbols g w (lwritten M e)) /\
  (forall e e', lproper M 0 0 e -> lproper M 0 0 e' -> symbols g w (lwritten M e) -> symbols g w (lwritten M e') -> e = e').
Proof.
  intros ast g M Hg Hf HM hash t Ht tokens w Hend.
  pose proof (m_wf _ _ _ Hg HM) as W. pose proof (m_R _ _ _ Hg HM) as R. pose proof (m_R' _ _ _ Hg HM) as R'.
  pose proof (m_U _ _ _ Hg HM) as U. pose proof (m_fresh _ _ Hf HM) as Fr. pose proof (m_fresh' _ _ Hf HM) as Fr'. pose proof (m_ok _ _ HM) as Ok.
  destruct (file_plain _ _ Hf Hg) as [Hp Hfr]. destruct (m_start _ _ _ Hg HM) as (st & Hs & En & _). pose proof Hp as [He _].
  pose proof (m_closed _ _ _ Hg Hf HM hash t Ht) as Hcl.
  assert (Hok : 0 < lg_sorts M /\ 0 <= lg_top M 0) by (split; [apply (mk_sort _ Ok)|lia]).
  assert (TO : forall e, lproper M 0 0 e -> symbols g w (lwritten M e) -> exists tr, parse_tree g (lg_name M 0 0) w tr /\ lmeans g M tr [e]).
  { intros e Hpe Hw. destruct (tree_out g M R' Ok e 0 0 Hpe) as (p & ts & Ho & Hr & Hm & Hy). exists (Node p ts). split; auto. split; auto. split; auto. rewrite Hy. cbn [said map concat]. rewrite app_nil_r. exact Hw. }
  assert (TI : forall tr, parse_tree g (lg_name M 0 0) w tr -> exists e, lproper M 0 0 e /\ symbols g w (lwritten M e) /\ lmeans g M tr [e]).
  { intros tr (Ho & Hr & Hy). destruct (tree_in g M W Fr Fr' R Ok tr 0 0 Hok Ho Hr) as (e & G1 & G2 & G3). exists e. rewrite <- G3. auto. }
  assert (TU : forall tr tr', parse_tree g (lg_name M 0 0) w tr -> parse_tree g (lg_name M 0 0) w tr' -> tr = tr').
  { rewrite <- En. intros tr tr'. exact (C33_unambiguous_partial _ _ _ Hg Hs Hp Hfr hash t Ht Hcl w tr tr'). }
  destruct (C30_accepts_exactly_the_sentences_partial _ _ _ Hg Hs Hp Hfr hash t Ht Hcl tokens w Hend) as [A1 A2].
  assert (SE : sentence g (ap_name st) w <-> exists tr, parse_tree g (lg_name M 0 0) w tr).
  { rewrite En. split.
    - intros (l & Hl & Htl & Hd). destruct (derives_forest g [SNon (lg_name M 0 0)] l Hd Htl) as (ts & Ho & Hm & Hy). destruct ts as [|tr [|tr' ts]]; try discriminate Hm.
      injection Hm as Hm. inversion Ho; subst. exists tr. split; auto. split; auto. cbn [flat_map] in Hl. rewrite app_nil_r in Hl. exact Hl.
    - intros (tr & Ho & Hr & Hy). exists (yield tr). split; auto. split; [eapply tree_terminals; eauto|apply tree_derives; auto]. }
  assert (SOUND : forall ps, parse_impl g t tokens = Base.Ok ps -> exists tr, parse_tree g (lg_name M 0 0) w tr /\ ps = postorder tr).
  { intros ps H. apply (C30_accepts_iff _ _ _ Hg Hs Hp Hfr hash t Ht tokens w ps Hend) in H as (tr & j & H1 & _ & H2). rewrite En in H1. eauto. }
  split; [|split].
  - intros ps. split.
    + intros H. destruct (SOUND ps H) as (tr & Htr & ->). destruct (TI _ Htr) as (e & G1 & G2 & G3). exists e, tr. auto.
    + intros (e & tr & _ & _ & Htr & _ & ->). destruct (proj2 A1 (proj2 SE (ex_intro _ tr Htr))) as [ps H]. destruct (SOUND ps H) as (tr' & Htr' & ->). rewrite (TU _ _ Htr Htr'). exact H.
  - rewrite A2, SE. split.
    + intros H e Hpe Hw. destruct (TO e Hpe Hw) as (tr & Htr & _). eauto.
    + intros H (tr & Htr). destruct (TI _ Htr) as (e & G1 & G2 & _). exact (H e G1 G2).
  - intros e e' H1 H1' H2 H2'. destruct (TO e H1 H2) as (tr & Htr & Hm), (TO e' H1' H2') as (tr' & Htr' & Hm'). rewrite (TU _ _ Htr' Htr) in Hm'.
    assert (E0 : [e] = [e']) by (eapply means_fun; eauto). congruence.
Qed.
Print Assumptions C88_parse.

(** From the text of the grammar file to the text parsed: the parser is made if the regexes can be, and on
    ASCII text it gives the reductions of the expression written or reports a wrong token. *)
Theorem C88_file :
  forall text ast M, file_says text ast -> listfix M ast ->
  forall parse_regex hash, (forall g lr0, gives text g -> items g = Ok lr0 -> collision_free hash lr0) ->
  (forall g, gives text g -> regexes_ok parse_regex g) ->
  exists l live acc, build parse_regex hash text = Ok l /\ splits parse_regex (l_grammar l) live acc /\
  forall input, ascii input -> exists ts rest syms, Tokenize live acc 0 input ts rest /\
    Forall2 (fun x z => exists y, nth_error (lex_syms (l_grammar l)) (snd (fst x)) = Some y /\ taken_for (l_grammar l) y z) ts syms /\
    ((exists e tr, lproper M 0 0 e /\ lwritten M e = syms /\ tree_ok (l_grammar l) tr /\ root (l_grammar l) tr = Some (SNon (lg_name M 0 0)) /\ yield tr = syms /\ lmeans (l_grammar l) M tr [e] /\
        lalr_parse l input = Ok (postorder tr)) \/
     ((forall e, lproper M 0 0 e -> lwritten M e <> syms) /\ lalr_parse l input = Panic PInvalidToken)).
Proof.
  intros text ast M Hsay HM parse hash Hc Hre.
  destruct (C51_reading text) as [HR _]. pose proof (proj2 (HR ast) Hsay) as Ea. pose proof (C52_file_ast _ _ Ea) as Hf.
  assert (Eg : exists g, grammar_from_ast ast = Ok g).
  { destruct HM as (_ & _ & (st & Hs & _) & _). unfold grammar_from_ast. rewrite Hs. destruct (fold_left add_prod ast _). eauto. }
  destruct Eg as [g Hg]. assert (Hgv : gives text g) by (exists ast; auto).
  destruct (C88_tables _ _ _ Hg Hf HM hash (fun lr0 => Hc g lr0 Hgv)) as (t & Ht & Hcl).
  pose proof (C81_lexer_end parse g) as HLx. pose proof (Hre g Hgv) as (R1 & R2 & R3).
  assert (Hb : exists l, build parse hash text = Ok l /\ l_grammar l = g /\ l_tables l = t).
  { unfold build. rewrite Ea. cbn [bind]. rewrite Hg. cbn [bind]. unfold lalr_new. destruct (from_grammar parse g) as [Lx|pn|]; [|destruct pn; tauto|contradiction].
    cbn [bind]. rewrite Ht. cbn [bind]. eexists. split; [reflexivity|]. auto. }
  destruct Hb as (l & Hb & Elg & Elt).
  destruct (C82_text_end _ _ _ _ Hb) as (ast' & st & lv & ac & Hsay' & Hg' & Hst & Hsp & H). rewrite (C51_unambiguous _ _ _ Hsay' Hsay) in *. clear ast' Hsay'.
  exists l, lv, ac. split; auto. split; auto. intros input Ha.
  destruct (H input) as (ts & rest & HT & [[Hn _]|(_ & syms & w & HF & Hw & H0 & Ho)]).
  { exfalso. apply Hn. eapply ascii_sliced; eauto. eapply tokenize_layout; eauto. }
  exists ts, rest, syms. split; auto. split; auto.
  assert (SY : forall l0, symbols (l_grammar l) w l0 -> l0 = syms).
  { intros l0 H1. unfold symbols in *. rewrite Hw in H1. clear -H1. revert l0 H1. induction syms as [|x s IH]; intros [|y l0] H1; try discriminate; auto. injection H1 as -> H1. f_equal. auto. }
  pose proof (m_ok _ _ HM) as Okm. assert (Hok : 0 < lg_sorts M /\ 0 <= lg_top M 0) by (split; [apply (mk_sort _ Okm)|lia]).
  destruct (m_start _ _ _ Hg' HM) as (st' & Hs' & En & _). rewrite Hst in Hs'. injection Hs' as <-. rewrite En in Ho.
  destruct (lalr_parse l input) as [ps|[]|] eqn:El; unfold outcome in Ho; try contradiction.
  - left. destruct Ho as (tr & j & Htr & _ & ->). destruct Htr as (Hto & Hr & Hy).
    destruct (tree_in _ M (m_wf _ _ _ Hg' HM) (m_fresh _ _ Hf HM) (m_fresh' _ _ Hf HM) (m_R _ _ _ Hg' HM) Okm tr 0 0 Hok Hto Hr) as (e & G1 & G2 & G3). pose proof (SY _ Hy) as Ey. exists e, tr. rewrite <- G3. auto 10.
  - right. split; auto. destruct Ho as [Hns _]. intros e Hpe Ew. subst syms.
    destruct (tree_out _ M (m_R' _ _ _ Hg' HM) Okm e 0 0 Hpe) as (p & us & Hto & Hr & Hm & Hy). cbn [said map concat hname] in Hy, Hr. rewrite app_nil_r in Hy.
    apply Hns; [rewrite Elg, Elt; exact Hcl|]. exists (lwritten M e). split; auto. rewrite <- Hy. split; [eapply tree_terminals; eauto|apply tree_derives; auto].
  - exfalso. apply Ho. rewrite Elg, Elt. exact Hcl.
  - exfalso. destruct Ho as [Ho _]. apply Ho. rewrite Elg, Elt. exact Hcl.
Qed.
Print Assumptions C88_file.

(** A list that ends in two ways is not read.  False for E -> E "+" T | T; T -> "(" A ")" | "[" A "]" | "i"; A -> A "," E | E: it
    does not accept "(i,i)". *)
Theorem C88_ends_refuted :
  exists ast g t tokens w, tables_of ast g t /\ well_formed g /\
    ast_rules ast = [([69], [SNon [69]; SStr [43]; SNon [84]]); ([69], [SNon [84]]); ([84], [SStr [40]; SNon [65]; SStr [41]]); ([84], [SStr [91]; SNon [65]; SStr [93]]); ([84], [SStr [105]]);
      ([65], [SNon [65]; SStr [44]; SNon [69]]); ([65], [SNon [69]])]%N /\
    ended tokens w /\ symbols g w [SStr [40]; SStr [105]; SStr [44]; SStr [105]; SStr [41]]%N /\
    (forall st, find ap_start ast = Some st -> sentence g (ap_name st) w) /\ parse_impl g t tokens = Panic PInvalidToken.
Proof.
  witness [PS 69 [[V 69; T 43; V 84]; [V 84]]; P 84 [[T 40; V 65; T 41]; [T 91; V 65; T 93]; [T 105]]; P 65 [[V 65; T 44; V 69]; [V 69]]]%N Eg Et.
  exists [1; 7; 4; 7; 2; 0], [1; 7; 4; 7; 2]. split; [apply tables_of_any; auto|].
  split; [wf_ok Eg|]. split; [reflexivity|]. split; [split; [reflexivity|simpl; intuition discriminate]|]. open Eg Et. split; [compute_ok|]. split; [|compute_ok].
  intros s Hs. vm_compute in Hs. injection Hs as <-. cbn [ap_name].
  apply (sentence_of _ _ _ (Node 2 [Node 3 [Leaf (SStr [40]%N); Node 6 [Node 7 [Node 2 [Node 5 [Leaf (SStr [105]%N)]]]; Leaf (SStr [44]%N); Node 2 [Node 5 [Leaf (SStr [105]%N)]]]; Leaf (SStr [41]%N)]])). compute_ok.
Qed.
Print Assumptions C88_ends_refuted.

(** An operator that ends with an expression of another sort, in a place that two terminals can follow.  False for V -> "[" P "]" | "{" P "}" | "n";
    P -> "k" ":" V: it does not accept "[k:n]". *)
Theorem C88_tails_refuted :
  exists ast g t tokens w, tables_of ast g t /\ well_formed g /\
    ast_rules ast = [([86], [SStr [91]; SNon [80]; SStr [93]]); ([86], [SStr [123]; SNon [80]; SStr [125]]); ([86], [SStr [110]]); ([80], [SStr [107]; SStr [58]; SNon [86]])]%N /\
    ended tokens w /\ symbols g w [SStr [91]; SStr [107]; SStr [58]; SStr [110]; SStr [93]]%N /\
    (forall st, find ap_start ast = Some st -> sentence g (ap_name st) w) /\ parse_impl g t tokens = Panic PInvalidToken.
Proof.
  witness [PS 86 [[T 91; V 80; T 93]; [T 123; V 80; T 125]; [T 110]]; P 80 [[T 107; T 58; V 86]]]%N Eg Et.
  exists [2; 4; 1; 5; 3; 0], [2; 4; 1; 5; 3]. split; [apply tables_of_any; auto|].
  split; [wf_ok Eg|]. split; [reflexivity|]. split; [split; [reflexivity|simpl; intuition discriminate]|]. open Eg Et. split; [compute_ok|]. split; [|compute_ok].
  intros s Hs. vm_compute in Hs. injection Hs as <-. cbn [ap_name].
  apply (sentence_of _ _ _ (Node 1 [Leaf (SStr [91]%N); Node 4 [Leaf (SStr [107]%N); Leaf (SStr [58]%N); Node 3 [Leaf (SStr [110]%N)]]; Leaf (SStr [93]%N)])). compute_ok.
Qed.
Print Assumptions C88_tails_refuted.

(** Sums, products, calls with one or more arguments, and rows of values, with a list of its own for each. *)
Definition file_seq : str := lines [
  tx "export start E: (T) = ["; tx "<x: E> ""+"" <y: M> => (x),"; tx "<x: M> => (x)"; tx "]";
  tx "export M: (T) = ["; tx "<x: M> ""*"" <y: W> => (x),"; tx "<x: W> => (x)"; tx "]";
  tx "export W: (T) = ["; tx "<x: W> ""("" <y: A> "")"" => (x),"; tx """["" <x: B> ""]"" => (x),"; tx """("" <x: E> "")"" => (x),"; tx """i"" => (x)"; tx "]";
  tx "export A: (T) = ["; tx "<x: A> "","" <y: E> => (x),"; tx "<x: E> => (x)"; tx "]";
  tx "export B: (T) = ["; tx "<x: B> "";"" <y: E> => (x),"; tx "<x: E> => (x)"; tx "]"].
Definition tk (s : string) := SStr (tx s).
Definition q_all : list (list form) := [
  [Form true (tk "+") [] RSame]; [Form true (tk "*") [] RSame];
  [Form true (tk "(") [PList 0] RNone; Form false (tk "[") [PList 1] RNone; Form false (tk "(") [PArg 0 (tk ")")] RNone; Form false (tk "i") [] RNone]].
Definition q_lang : lang := {|
  lg_sorts := 1; lg_name := fun _ i => [nth i [69; 77; 87]%N 0%N]; lg_top := fun _ => 2; lg_left := fun _ _ => true; lg_forms := fun _ i => nth i q_all [];
  ls_count := 2; ls_name := fun n => [nth n [65; 66]%N 0%N]; ls_sort := fun _ => 0; ls_sep := fun n => nth n [tk ","; tk ";"] SEof; ls_end := fun n => nth n [tk ")"; tk "]"] SEof |}.
Definition q_list : list (nat * nat * form) := flat_map (fun i => map (fun f => (0, i, f)) (nth i q_all [])) (seq 0 3).
Lemma q_list_all s i f : is_form q_lang s i f <-> In (s, i, f) q_list.
Proof.
  split.
  - intros (Hs & Hi & Hf). cbn [q_lang lg_sorts lg_top lg_forms] in *. destruct s as [|s]; [|lia].
    destruct i as [|[|[|i]]]; [..|lia]; cbn in Hf; repeat (destruct Hf as [<-|Hf]; [vm_compute; tauto|]); destruct Hf.
  - intros H. vm_compute in H. repeat (destruct H as [H|H]; [injection H as <- <- <-; split; [vm_compute; lia|split; [vm_compute; lia|vm_compute; tauto]]|]). destruct H.
Qed.
Local Ltac each H := apply q_list_all in H; vm_compute in H; repeat (destruct H as [H|H]; [try (injection H; clear H; intros; subst)|]); [..|destruct H].
Lemma q_lang_ok : lang_ok q_lang.
Proof.
  constructor.
  - vm_compute. lia.
  - intros s i s' i' Hs Hi Hs' Hi' H. destruct s as [|s], s' as [|s']; try (cbn in *; lia); cbn in Hi, Hi'; destruct i as [|[|[|i]]], i' as [|[|[|i']]]; try lia; try discriminate H; auto.
  - intros n n' Hn Hn' H. destruct n as [|[|n]], n' as [|[|n']]; try (cbn in *; lia); try discriminate H; auto.
  - intros n s i Hn Hs Hi H. destruct n as [|[|n]]; try (cbn in *; lia); destruct i as [|[|[|i]]]; try (cbn in *; lia); discriminate H.
  - intros s Hs. discriminate.
  - intros s i f H x Hx. each H; vm_compute in Hx; repeat (destruct Hx as [<-|Hx]; [first [intros m; discriminate|vm_compute; lia]|]); destruct Hx.
  - intros n Hn. destruct n as [|[|n]]; try (cbn in *; lia); (split; [vm_compute; lia|]); (split; [intros m; discriminate|]); (split; [intros m; discriminate|discriminate]).
  - intros s i j f f' H H' E1 E2. each H; each H'; try discriminate; first [discriminate E1|discriminate E2|auto].
  - intros s i f s' j f' t H E1 H' Ht. each H; try discriminate E1; each H'; vm_compute in Ht;
      repeat (destruct Ht as [Ht|Ht]; [first [discriminate Ht|injection Ht as <-; discriminate]|]); destruct Ht.
  - intros i f n Hn H E1. destruct n as [|[|n]]; try (cbn in *; lia); each H; try discriminate E1; split; discriminate.
  - intros s i f s' H E1. each H; discriminate E1.
Qed.
Definition nm (s : string) := SNon (tx s).
Definition q_rules : list (str * list sym) :=
  [(tx "E", [nm "E"; tk "+"; nm "M"]); (tx "E", [nm "M"]); (tx "M", [nm "M"; tk "*"; nm "W"]); (tx "M", [nm "W"]);
   (tx "W", [nm "W"; tk "("; nm "A"; tk ")"]); (tx "W", [tk "["; nm "B"; tk "]"]); (tx "W", [tk "("; nm "E"; tk ")"]); (tx "W", [tk "i"]);
   (tx "A", [nm "A"; tk ","; nm "E"]); (tx "A", [nm "E"]); (tx "B", [nm "B"; tk ";"; nm "E"]); (tx "B", [nm "E"])].
Definition v_ : lexp := LOp 0 2 (Form false (tk "i") [] RNone) [].
Definition plus_ (a b : lexp) := LOp 0 0 (Form true (tk "+") [] RSame) [[a]; [b]].
Definition call_ (f : lexp) (l : list lexp) := LOp 0 2 (Form true (tk "(") [PList 0] RNone) [[f]; l].
Definition row_ (l : list lexp) := LOp 0 2 (Form false (tk "[") [PList 1] RNone) [l].
Definition q_exp : lexp := plus_ (call_ v_ [plus_ v_ v_; row_ [v_; v_; v_]; v_]) (call_ (call_ v_ [v_]) [v_]).
Local Ltac fills_ok := repeat first [apply Forall2_nil|apply Forall2_cons|apply ft_arg|apply ft_one
  |match goal with |- fills _ (HList _) [?a; ?b; ?c] => apply (ft_more q_lang _ [a; b] c) | |- fills _ (HList _) [?a; ?b] => apply (ft_more q_lang _ [a] b) end
  |apply lp_op; [vm_compute; lia|apply q_list_all; vm_compute; tauto|cbn [holes form_slots flat_map piece_slots app fm_l fm_more fm_r fm_first]]].
Example C88_nonvacuous :
  (exists ast, file_says file_seq ast /\ listfix q_lang ast) /\
  (forall g lr0, gives file_seq g -> items g = Ok lr0 -> collision_free ehash lr0) /\ (forall g, gives file_seq g -> regexes_ok reg g) /\
  run_text file_seq (tx "i(i+i,[i;i;i],i)+i(i)(i)") =
    Ok [8; 8; 4; 2; 8; 4; 1; 10; 8; 4; 2; 12; 8; 4; 2; 11; 8; 4; 2; 11; 6; 4; 2; 9; 8; 4; 2; 9; 5; 4; 2; 8; 8; 4; 2; 10; 5; 8; 4; 2; 10; 5; 4; 1] /\
  run_text file_seq (tx "i(i,)") = Panic PInvalidToken /\ run_text file_seq (tx "[i,i]") = Panic PInvalidToken /\
  lproper q_lang 0 0 q_exp /\
  lwritten q_lang q_exp = map tk ["i"; "("; "i"; "+"; "i"; ","; "["; "i"; ";"; "i"; ";"; "i"; "]"; ","; "i"; ")"; "+"; "i"; "("; "i"; ")"; "("; "i"; ")"]%string /\
  ~ lproper q_lang 0 0 (row_ []).
Proof.
  assert (Ea : exists ast, parse_grammar file_seq = Ok ast /\ ast_rules ast = q_rules /\ (exists st, find ap_start ast = Some st /\ ap_name st = tx "E")).
  { let v := eval vm_compute in (parse_grammar file_seq) in match v with Ok ?a => exists a end. split; [vm_compute; reflexivity|]. split; [vm_compute; reflexivity|]. eexists. split; vm_compute; reflexivity. }
  destruct Ea as (ast & Ea & Er & Hst).
  assert (Hs : file_says file_seq ast) by (apply (C51_reading file_seq), Ea).
  assert (Hmix : listfix q_lang ast).
  { unfold listfix. rewrite Er. clear -Hst. split; [|split; [|split; [exact Hst|exact q_lang_ok]]].
    - intros A b. split.
      + assert (HF : Forall (fun x => lrule q_lang (lg_name q_lang (fst (fst x)) (snd (fst x))) (map (slot_sym q_lang) (form_slots q_lang (fst (fst x)) (snd (fst x)) (snd x)))) q_list).
        { apply Forall_forall. intros [[s i] f] H. apply lr_form, q_list_all, H. }
        pose proof (lr_pass q_lang 0 0 ltac:(vm_compute; lia) ltac:(vm_compute; lia)) as P1. pose proof (lr_pass q_lang 0 1 ltac:(vm_compute; lia) ltac:(vm_compute; lia)) as P2.
        pose proof (lr_one q_lang 0 ltac:(vm_compute; lia)) as P3. pose proof (lr_one q_lang 1 ltac:(vm_compute; lia)) as P4.
        pose proof (lr_more q_lang 0 ltac:(vm_compute; lia)) as P5. pose proof (lr_more q_lang 1 ltac:(vm_compute; lia)) as P6.
        change (lrule q_lang) with (id (lrule q_lang)) in *. set (R := id (lrule q_lang)) in *. clearbody R.
        vm_compute in P1, P2, P3, P4, P5, P6, HF. repeat match type of HF with Forall _ (_ :: _) => apply Forall_cons_iff in HF as [? HF] end.
        intros HI. vm_compute in HI. repeat (destruct HI as [HI|HI]; [injection HI as <- <-; assumption|]). destruct HI.
      + intros H. destruct H as [s i H1 H2|s i f H|n H|n H].
        * cbn in H1, H2. destruct s as [|s]; [|lia]. destruct i as [|[|i]]; [vm_compute; tauto..|lia].
        * each H; vm_compute; tauto.
        * cbn in H. destruct n as [|[|n]]; [vm_compute; tauto..|lia].
        * cbn in H. destruct n as [|[|n]]; [vm_compute; tauto..|lia].
    - vm_compute. repeat (constructor; [simpl; intuition discriminate|]). constructor. }
  split; [eauto|]. split; [intros; apply ehash_free|]. split.
  { intros g (ast' & H1 & H2). pose proof (C81_file_end reg ehash file_seq ltac:(intros; apply ehash_free)) as H.
    assert (HB : match build reg ehash file_seq with Ok _ => True | _ => False end) by (vm_compute; exact I).
    destruct (build reg ehash file_seq) as [l| |]; [|contradiction..]. destruct H as ((ast2 & H3 & H4) & H & _).
    rewrite (C51_unambiguous _ _ _ H1 H3) in H2. rewrite H2 in H4. injection H4 as ->. exact H. }
  do 3 (split; [vm_compute; reflexivity|]). split; [unfold q_exp, plus_, call_, row_, v_; fills_ok|]. split; [vm_compute; reflexivity|].
  intros H. inversion H as [? ? ? ? ? _ _ HF]; subst. vm_compute in HF. inversion HF as [|? ? ? ? HB _]; subst. destruct (fills_some _ _ _ HB eq_refl).
Qed.

(** Values as in JSON: lists of values and lists of pairs of a name and a value. *)
Definition file_json : str := lines [
  tx "export start V: (T) = ["; tx """["" <x: A> ""]"" => (x),"; tx """{"" <x: O> ""}"" => (x),"; tx """n"" => (1)"; tx "]";
  tx "export A: (T) = ["; tx "<x: A> "","" <y: V> => (x),"; tx "<x: V> => (x)"; tx "]";
  tx "export O: (T) = ["; tx "<x: O> "","" <y: P> => (x),"; tx "<x: P> => (x)"; tx "]";
  tx "export P: (T) = ["; tx """k"" "":"" <y: V> => (x)"; tx "]"].
Definition j_forms (s : nat) : list form := match s with 0 => [Form false (tk "[") [PList 0] RNone; Form false (tk "{") [PList 1] RNone; Form false (tk "n") [] RNone] | _ => [Form false (tk "k") [PTok (tk ":")] (ROther 0)] end.
Definition j_lang : lang := {|
  lg_sorts := 2; lg_name := fun s _ => [nth s [86; 80]%N 0%N]; lg_top := fun _ => 0; lg_left := fun _ _ => true; lg_forms := fun s _ => j_forms s;
  ls_count := 2; ls_name := fun n => [nth n [65; 79]%N 0%N]; ls_sort := fun n => n; ls_sep := fun _ => tk ","; ls_end := fun n => nth n [tk "]"; tk "}"] SEof |}.
Definition j_list : list (nat * nat * form) := flat_map (fun s => map (fun f => (s, 0, f)) (j_forms s)) (seq 0 2).
Lemma j_list_all s i f : is_form j_lang s i f <-> In (s, i, f) j_list.
Proof.
  split.
  - intros (Hs & Hi & Hf). cbn [j_lang lg_sorts lg_top lg_forms] in *. assert (i = 0) as -> by lia.
    destruct s as [|[|s]]; [..|lia]; cbn in Hf; repeat (destruct Hf as [<-|Hf]; [vm_compute; tauto|]); destruct Hf.
  - intros H. vm_compute in H. repeat (destruct H as [H|H]; [injection H as <- <- <-; split; [vm_compute; lia|split; [vm_compute; lia|vm_compute; tauto]]|]). destruct H.
Qed.
Local Ltac each' H := apply j_list_all in H; vm_compute in H; repeat (destruct H as [H|H]; [try (injection H; clear H; intros; subst)|]); [..|destruct H].
Lemma j_lang_ok : lang_ok j_lang.
Proof.
  constructor.
  - vm_compute. lia.
  - intros s i s' i' Hs Hi Hs' Hi' H. cbn in Hi, Hi'. destruct s as [|[|s]], s' as [|[|s']]; try (cbn in *; lia); try discriminate H; lia.
  - intros n n' Hn Hn' H. destruct n as [|[|n]], n' as [|[|n']]; try (cbn in *; lia); try discriminate H; auto.
  - intros n s i Hn Hs Hi H. destruct n as [|[|n]]; try (cbn in *; lia); destruct s as [|[|s]]; try (cbn in *; lia); discriminate H.
  - intros s Hs. destruct s; discriminate.
  - intros s i f H x Hx. each' H; vm_compute in Hx; repeat (destruct Hx as [<-|Hx]; [first [intros m; discriminate|vm_compute; lia]|]); destruct Hx.
  - intros n Hn. destruct n as [|[|n]]; try (cbn in *; lia); (split; [vm_compute; lia|]); (split; [intros m; discriminate|]); (split; [intros m; discriminate|discriminate]).
  - intros s i j f f' H H' E1 E2. each' H; each' H'; try discriminate; first [discriminate E1|discriminate E2|auto].
  - intros s i f s' j f' t H E1. each' H; discriminate E1.
  - intros i f n Hn H E1. each' H; discriminate E1.
  - intros s i f s' H E1. each' H; try discriminate E1. injection E1 as <-. split; [lia|].
    split; [intros j f' H'; each' H'; auto|]. split; [intros s0 j f' H'; each' H'; discriminate|].
    exists (tk ","), (tk "}"). split; [|split].
    + intros s0 j f' t H' Ht. each' H'; vm_compute in Ht; intuition discriminate.
    + intros n Hn E2. cbn in E2. subst n. auto.
    + intros j f' H' El. each' H'; discriminate El.
Qed.
Definition j_rules : list (str * list sym) :=
  [(tx "V", [tk "["; nm "A"; tk "]"]); (tx "V", [tk "{"; nm "O"; tk "}"]); (tx "V", [tk "n"]);
   (tx "A", [nm "A"; tk ","; nm "V"]); (tx "A", [nm "V"]); (tx "O", [nm "O"; tk ","; nm "P"]); (tx "O", [nm "P"]); (tx "P", [tk "k"; tk ":"; nm "V"])].
Definition j_n : lexp := LOp 0 0 (Form false (tk "n") [] RNone) [].
Definition j_row (l : list lexp) := LOp 0 0 (Form false (tk "[") [PList 0] RNone) [l].
Definition j_obj (l : list lexp) := LOp 0 0 (Form false (tk "{") [PList 1] RNone) [l].
Definition j_pair (v : lexp) := LOp 1 0 (Form false (tk "k") [PTok (tk ":")] (ROther 0)) [[v]].
Definition j_exp : lexp := j_obj [j_pair (j_row [j_n; j_obj [j_pair j_n]]); j_pair j_n].
Local Ltac fills_ok' := repeat first [apply Forall2_nil|apply Forall2_cons|apply ft_arg|apply ft_one
  |match goal with |- fills _ (HList _) [?a; ?b] => apply (ft_more j_lang _ [a] b) end
  |apply lp_op; [vm_compute; lia|apply j_list_all; vm_compute; tauto|cbn [holes form_slots flat_map piece_slots app fm_l fm_more fm_r fm_first]]].
Example C88_nonvacuous_json :
  (exists ast, file_says file_json ast /\ listfix j_lang ast) /\
  (forall g lr0, gives file_json g -> items g = Ok lr0 -> collision_free ehash lr0) /\ (forall g, gives file_json g -> regexes_ok reg g) /\
  run_text file_json (tx "{k:[n,{k:n}],k:n}") = Ok [3; 5; 3; 8; 7; 2; 4; 1; 8; 7; 3; 8; 6; 2] /\ run_text file_json (tx "[k:n]") = Panic PInvalidToken /\
  lproper j_lang 0 0 j_exp /\ lwritten j_lang j_exp = map tk ["{"; "k"; ":"; "["; "n"; ","; "{"; "k"; ":"; "n"; "}"; "]"; ","; "k"; ":"; "n"; "}"]%string /\
  ~ lproper j_lang 0 0 (j_row [j_pair j_n]).
Proof.
  assert (Ea : exists ast, parse_grammar file_json = Ok ast /\ ast_rules ast = j_rules /\ (exists st, find ap_start ast = Some st /\ ap_name st = tx "V")).
  { let v := eval vm_compute in (parse_grammar file_json) in match v with Ok ?a => exists a end. split; [vm_compute; reflexivity|]. split; [vm_compute; reflexivity|]. eexists. split; vm_compute; reflexivity. }
  destruct Ea as (ast & Ea & Er & Hst).
  assert (Hs : file_says file_json ast) by (apply (C51_reading file_json), Ea).
  assert (Hmix : listfix j_lang ast).
  { unfold listfix. rewrite Er. clear -Hst. split; [|split; [|split; [exact Hst|exact j_lang_ok]]].
    - intros A b. split.
      + assert (HF : Forall (fun x => lrule j_lang (lg_name j_lang (fst (fst x)) (snd (fst x))) (map (slot_sym j_lang) (form_slots j_lang (fst (fst x)) (snd (fst x)) (snd x)))) j_list).
        { apply Forall_forall. intros [[s i] f] H. apply lr_form, j_list_all, H. }
        pose proof (lr_one j_lang 0 ltac:(vm_compute; lia)) as P3. pose proof (lr_one j_lang 1 ltac:(vm_compute; lia)) as P4.
        pose proof (lr_more j_lang 0 ltac:(vm_compute; lia)) as P5. pose proof (lr_more j_lang 1 ltac:(vm_compute; lia)) as P6.
        change (lrule j_lang) with (id (lrule j_lang)) in *. set (R := id (lrule j_lang)) in *. clearbody R.
        vm_compute in P3, P4, P5, P6, HF. repeat match type of HF with Forall _ (_ :: _) => apply Forall_cons_iff in HF as [? HF] end.
        intros HI. vm_compute in HI. repeat (destruct HI as [HI|HI]; [injection HI as <- <-; assumption|]). destruct HI.
      + intros H. destruct H as [s i H1 H2|s i f H|n H|n H].
        * cbn in H2. lia.
        * each' H; vm_compute; tauto.
        * cbn in H. destruct n as [|[|n]]; [vm_compute; tauto..|lia].
        * cbn in H. destruct n as [|[|n]]; [vm_compute; tauto..|lia].
    - vm_compute. repeat (constructor; [simpl; intuition discriminate|]). constructor. }
  split; [eauto|]. split; [intros; apply ehash_free|]. split.
  { intros g (ast' & H1 & H2). pose proof (C81_file_end reg ehash file_json ltac:(intros; apply ehash_free)) as H.
    assert (HB : match build reg ehash file_json with Ok _ => True | _ => False end) by (vm_compute; exact I).
    destruct (build reg ehash file_json) as [l| |]; [|contradiction..]. destruct H as ((ast2 & H3 & H4) & H & _).
    rewrite (C51_unambiguous _ _ _ H1 H3) in H2. rewrite H2 in H4. injection H4 as ->. exact H. }
  do 2 (split; [vm_compute; reflexivity|]). split; [unfold j_exp, j_row, j_obj, j_pair, j_n; fills_ok'|]. split; [vm_compute; reflexivity|].
  intros H. remember (j_row [j_pair j_n]) as e eqn:Ee. destruct H as [? ? ? ? ? _ _ HF]. unfold j_row in Ee. injection Ee as -> -> -> ->. vm_compute in HF. inversion HF as [|? ? ? ? HB _]; subst.
  assert (G : forall h es, fills j_lang h es -> h = HList 0 -> forall e, es = [e] -> lproper j_lang 0 0 e).
  { intros h es [s1 i1 e1 H|n e1 H|n es1 e1 H1 H2] Eh e0 E0; [discriminate|injection Eh as ->; injection E0 as <-; exact H|]. injection Eh as ->.
    destruct es1 as [|e2 es1]; [destruct (fills_some _ _ _ H1 eq_refl)|]. destruct es1; discriminate E0. }
  assert (G' : forall s i e0, lproper j_lang s i e0 -> s = match e0 with LOp s' _ _ _ => s' end) by (intros s1 i1 e0 []; reflexivity).
  discriminate (G' _ _ _ (G _ _ HB eq_refl _ eq_refl)).
Qed.
