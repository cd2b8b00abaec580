(** Property C84: grammars of operators with several parts. *)
From Coq Require Import String.
From Verif Require Import Base Text Regex Nfa NfaProofs Dfa Lex LexSpec LexNfa LexProofs Grammar GrammarSpec GrammarProofs First Item ItemSpec ItemProofs ItemPlain
  GrammarCheck Table TableSpec MergeProofs TableProofs TableFacts LexGrammar LexGrammarProofs Parse ParseSpec ParseCheck TreeFacts Auto ParseProofs ParseTerm ParseCycle ParseComplete
  Report ReportSpec ReportProofs ReportExact Lalr EndSpec EndProofs Utf8Spec Utf8Proofs GrammarFile GrammarFileSpec Witness IsoSpec Iso IsoGrammar
  PropsLex PropsGrammar PropsTable PropsParse PropsMerge PropsReport PropsEnd PropsGrammarFile Lisp PropsOutcome PropsParseEnd LayerProofs MixSpec MixProofs.
Local Open Scope list_scope.

Local Ltac compute_ok := vm_compute; reflexivity.
Local Ltac witness w Eg Et :=
  exists w; destruct (grammar_from_ast w) as [g| |] eqn:Eg; [|vm_compute in Eg; discriminate Eg..];
  destruct (make_tables ehash g) as [t| |] eqn:Et; [|vm_compute in Eg; injection Eg as <-; vm_compute in Et; discriminate Et..];
  exists g, t.
Local Ltac open Eg Et := vm_compute in Eg; injection Eg as <-; vm_compute in Et; injection Et as <-.
Local Ltac wf_ok Eg := vm_compute in Eg; injection Eg as <-;
  split; [split; [apply eps_free_b_ok|apply eof_free_b_ok]|apply start_fresh_b_ok]; reflexivity.
Lemma sentence_of g n w tr : parse_tree_b g n w tr = true -> sentence g n w.
Proof.
  intros H. apply parse_tree_b_ok in H as (Ho & Hr & Hy). exists (yield tr). split; [exact Hy|]. split; [eapply tree_terminals; exact Ho|apply tree_derives; auto].
Qed.

Section Mixfix.
  Variables (ast : list aprod) (g : grammar) (M : mix).
  Hypothesis Hg : grammar_from_ast ast = Ok g.
  Hypothesis Hf : file_ast ast.
  Hypothesis HM : mixfix M ast.
  Notation E := (mx_name M).

  Lemma m_ok : mix_ok M.
  Proof using HM. destruct HM as (_ & _ & _ & H). exact H. Qed.
  Lemma m_start : exists st, find ap_start ast = Some st /\ ap_name st = E 0 0 /\ wf_grammar g (E 0 0) /\ map shape (g_prods g) = (aug_name (E 0 0), [SNon (E 0 0)]) :: ast_rules ast.
  Proof using Hg HM.
    destruct HM as (_ & _ & (st & Hs & En) & _). destruct (prods_rules _ _ Hg) as (st' & Hs' & W & EP). rewrite Hs in Hs'. injection Hs' as <-. rewrite En in *.
    exists st. auto.
  Qed.
  Lemma m_prod p pr : nth_error (g_prods g) (S p) = Some pr -> exists e, nth_error (ast_rules ast) p = Some e /\ shape pr = e.
  Proof using Hg HM.
    intros H. destruct m_start as (_ & _ & _ & _ & EP). apply (map_nth_error shape) in H. rewrite EP in H. cbn [nth_error] in H. eauto.
  Qed.
  Lemma m_wf : wf_grammar g (E 0 0).
  Proof using Hg HM. destruct m_start as (st & _ & _ & W & _). exact W. Qed.
  Lemma m_plain : plain g.
  Proof using Hg Hf. apply (file_plain _ _ Hf Hg). Qed.
  Lemma m_R p pr : nth_error (g_prods g) p = Some pr -> p <> 0 -> mrule M (p_name pr) (p_syms pr).
  Proof using Hg HM.
    intros H H0. destruct p as [|p]; [congruence|]. apply m_prod in H as (e & He & <-). destruct HM as (HA & _). apply HA. apply nth_error_In in He. exact He.
  Qed.
  Lemma m_R' A b : mrule M A b -> exists p pr, p <> 0 /\ nth_error (g_prods g) p = Some pr /\ p_name pr = A /\ p_syms pr = b.
  Proof using Hg HM.
    intros H. destruct HM as (HA & _). apply HA in H. apply In_nth_error in H as [p Hp]. destruct m_start as (_ & _ & _ & _ & EP).
    assert (G : nth_error (map shape (g_prods g)) (S p) = Some (A, b)) by (rewrite EP; exact Hp). rewrite nth_error_map in G.
    destruct (nth_error (g_prods g) (S p)) as [pr|] eqn:Hpr; [|discriminate]. cbn [option_map] in G. injection G as Es.
    exists (S p), pr. split; [lia|]. split; auto.
  Qed.
  Lemma m_U p q pp pq : p <> 0 -> q <> 0 -> nth_error (g_prods g) p = Some pp -> nth_error (g_prods g) q = Some pq -> p_name pp = p_name pq -> p_syms pp = p_syms pq -> p = q.
  Proof using Hg HM.
    intros Hp Hq H H' E1 E2. destruct p as [|p], q as [|q]; try congruence. f_equal. apply m_prod in H as (e & He & <-), H' as (e' & He' & <-).
    destruct HM as (_ & HN & _). rewrite NoDup_nth_error in HN. apply HN; [apply nth_error_Some; congruence|]. rewrite He, He'. unfold shape. congruence.
  Qed.
  Lemma m_level s i : s < mx_sorts M -> i <= mx_top M s -> exists b, mrule M (E s i) b.
  Proof using HM.
    intros Hs Hi. assert (D : i < mx_top M s \/ i = mx_top M s) by lia. destruct D as [D| ->]; [eexists; apply mr_pass; auto|].
    pose proof (mk_some _ m_ok s Hs) as Hn. destruct (mx_forms M s (mx_top M s)) as [|f l] eqn:Ef; [congruence|].
    eexists. apply (mr_form M s (mx_top M s) f). split; [auto|split; [lia|rewrite Ef; left; auto]].
  Qed.
  Lemma m_fresh s i : s < mx_sorts M -> i <= mx_top M s -> aug_name (E 0 0) <> E s i.
  Proof using Hf HM.
    intros Hs Hi H. destruct (m_level s i Hs Hi) as [b Hb]. destruct HM as (HA & _). apply HA in Hb. unfold ast_rules in Hb. apply in_flat_map in Hb as (p & Hp & Hb).
    apply in_map_iff in Hb as (bd & Eb & _). injection Eb as En _. destruct Hf as [_ HF]. destruct (HF p Hp) as [Hid _]. rewrite En in Hid. eapply ident_no_quote; [exact Hid|]. symmetry. exact H.
  Qed.
  Lemma m_defined : ~ undefined_name g.
  Proof using Hg Hf HM.
    intros (p & pr & B & _ & Hp & Hi & Hn). destruct (body_names g M m_wf m_R m_ok _ _ _ Hp Hi) as (s & i & [Hs Hin] & ->). destruct (m_level s i Hs Hin) as [b Hb].
    destruct (m_R' _ _ Hb) as (q & pq & _ & Hq & En & _). apply Hn. exists pq. eauto using nth_error_In.
  Qed.
  Lemma m_follows : ~ left_follows g.
  Proof using Hg Hf HM.
    intros (p & pr & d & B & x & A & b & _ & Hp & Hd & Hx & Hder & _). pose proof (after_name g M m_wf m_R m_ok _ _ _ _ _ Hp Hd Hx) as Ht.
    pose proof (derives_head g _ _ _ _ Ht Hder) as H. eapply Ht. symmetry. exact H.
  Qed.
  Lemma m_closed hash t : make_tables hash g = Ok t -> closed g t.
  Proof using Hg Hf HM.
    intros Ht i p d k x (s & Hs & Hk) Hx. pose proof m_plain as [He _].
    destruct (C26_states_are_lalr _ _ Hg He _ _ Ht) as (H1 & _). destruct (H1 i s Hs) as (I & HI & Hq).
    assert (Hx' : exists p d k, I p d k /\ sym_at g p d x).
    { apply Hq in Hk as (J & _ & Hc & Hk). destruct (proj2 (Hc p d) (ex_intro _ k Hk)) as [k' Hk']. eauto. }
    pose proof (states_found g M m_wf m_fresh m_R m_R' m_U m_ok I x HI Hx') as F. apply (found_eq g _ _ x Hq) in F.
    destruct (C28_transitions_iff _ _ Hg He _ _ Ht i s p d k x Hs Hk Hx) as [A1 A2]. split.
    - intros Htx kx Hkx. destruct (A1 Htx) as (kx' & Hkx' & A). replace kx with kx' by (apply tok_idx in Hkx, Hkx'; congruence). apply A, F.
    - intros A E0. apply (A2 A E0), F.
  Qed.
End Mixfix.

(** ** Theorems *)

(** The tables are made, whatever the hash as long as no two cores share one, and no transition is missing. *)
Theorem C84_tables :
  forall ast g M, grammar_from_ast ast = Ok g -> file_ast ast -> mixfix M ast ->
  forall hash, (forall lr0, items g = Ok lr0 -> collision_free hash lr0) -> exists t, make_tables hash g = Ok t /\ closed g t.
Proof.
  intros ast g M Hg Hf HM hash Hc. pose proof (m_plain _ _ Hg Hf) as Hp. pose proof Hp as [He _].
  pose proof (m_wf _ _ _ Hg HM) as W. pose proof (m_R _ _ _ Hg HM) as R. pose proof (m_R' _ _ _ Hg HM) as R'.
  pose proof (m_U _ _ _ Hg HM) as U. pose proof (m_fresh _ _ Hf HM) as Fr. pose proof (m_ok _ _ HM) as Ok.
  destruct (C81_tables_outcome _ _ Hg He hash Hc) as (_ & _ & _ & _ & G). destruct G as [t Ht].
  - exact (m_defined _ _ _ Hg Hf HM).
  - exact (m_follows _ _ _ Hg Hf HM).
  - intros I HI. apply (states_settled g M); auto.
  - exists t. split; auto. exact (m_closed _ _ _ Hg Hf HM hash t Ht).
Qed.
Print Assumptions C84_tables.

(** The tables, however they were made, accept the expressions of the first sort and nothing else; the reductions are those of a
    tree whose operators have the operands that precedence and associativity give them; there is one reading. *)
Theorem C84_parse :
  forall ast g M, grammar_from_ast ast = Ok g -> file_ast ast -> mixfix M ast ->
  forall hash t, make_tables hash g = Ok t ->
  forall tokens w, ended tokens w ->
  (forall ps, parse_impl g t tokens = Ok ps <->
     exists e tr, mproper M 0 0 e /\ symbols g w (mwritten M e) /\ parse_tree g (mx_name M 0 0) w tr /\ mmeans g M tr e /\ ps = postorder tr) /\
  (parse_impl g t tokens = Panic PInvalidToken <-> forall e, mproper M 0 0 e -> ~ symbols g w (mwritten M e)) /\
  (forall e e', mproper M 0 0 e -> mproper M 0 0 e' -> symbols g w (mwritten M e) -> symbols g w (mwritten M e') -> e = e').
Proof.
  intros ast g M Hg Hf HM hash t Ht tokens w Hend.
  pose proof (m_wf _ _ _ Hg HM) as W. pose proof (m_R _ _ _ Hg HM) as R. pose proof (m_R' _ _ _ Hg HM) as R'.
  pose proof (m_U _ _ _ Hg HM) as U. pose proof (m_fresh _ _ Hf HM) as Fr. pose proof (m_ok _ _ HM) as Ok.
  destruct (file_plain _ _ Hf Hg) as [Hp Hfr]. destruct (m_start _ _ _ Hg HM) as (st & Hs & En & _). pose proof Hp as [He _].
  pose proof (m_closed _ _ _ Hg Hf HM hash t Ht) as Hcl.
  assert (Hok : 0 < mx_sorts M /\ 0 <= mx_top M 0) by (split; [apply (mk_sort _ Ok)|lia]).
  assert (TO : forall e, mproper M 0 0 e -> symbols g w (mwritten M e) -> exists tr, parse_tree g (mx_name M 0 0) w tr /\ mmeans g M tr e).
  { intros e Hpe Hw. destruct (tree_out g M R' Ok e 0 0 Hpe) as (p & ts & Ho & Hr & Hm & Hy). exists (Node p ts). split; auto. split; auto. split; auto. rewrite Hy. exact Hw. }
  assert (TI : forall tr, parse_tree g (mx_name M 0 0) w tr -> exists e, mproper M 0 0 e /\ symbols g w (mwritten M e) /\ mmeans g M tr e).
  { intros tr (Ho & Hr & Hy). destruct (tree_in g M W Fr R Ok tr 0 0 Hok Ho Hr) as (e & G1 & G2 & G3). exists e. rewrite <- G3. auto. }
  assert (TU : forall tr tr', parse_tree g (mx_name M 0 0) w tr -> parse_tree g (mx_name M 0 0) w tr' -> tr = tr').
  { rewrite <- En. intros tr tr'. exact (C33_unambiguous_partial _ _ _ Hg Hs Hp Hfr hash t Ht Hcl w tr tr'). }
  destruct (C30_accepts_exactly_the_sentences_partial _ _ _ Hg Hs Hp Hfr hash t Ht Hcl tokens w Hend) as [A1 A2].
  assert (SE : sentence g (ap_name st) w <-> exists tr, parse_tree g (mx_name M 0 0) w tr).
  { rewrite En. split.
    - intros (l & Hl & Htl & Hd). destruct (derives_forest g [SNon (mx_name M 0 0)] l Hd Htl) as (ts & Ho & Hm & Hy). destruct ts as [|tr [|tr' ts]]; try discriminate Hm.
      injection Hm as Hm. inversion Ho; subst. exists tr. split; auto. split; auto. cbn [flat_map] in Hl. rewrite app_nil_r in Hl. exact Hl.
    - intros (tr & Ho & Hr & Hy). exists (yield tr). split; auto. split; [eapply tree_terminals; eauto|apply tree_derives; auto]. }
  assert (SOUND : forall ps, parse_impl g t tokens = Base.Ok ps -> exists tr, parse_tree g (mx_name M 0 0) w tr /\ ps = postorder tr).
  { intros ps H. apply (C30_accepts_iff _ _ _ Hg Hs Hp Hfr hash t Ht tokens w ps Hend) in H as (tr & j & H1 & _ & H2). rewrite En in H1. eauto. }
  split; [|split].
  - intros ps. split.
    + intros H. destruct (SOUND ps H) as (tr & Htr & ->). destruct (TI _ Htr) as (e & G1 & G2 & G3). exists e, tr. auto.
    + intros (e & tr & _ & _ & Htr & _ & ->). destruct (proj2 A1 (proj2 SE (ex_intro _ tr Htr))) as [ps H]. destruct (SOUND ps H) as (tr' & Htr' & ->). rewrite (TU _ _ Htr Htr'). exact H.
  - rewrite A2, SE. split.
    + intros H e Hpe Hw. destruct (TO e Hpe Hw) as (tr & Htr & _). eauto.
    + intros H (tr & Htr). destruct (TI _ Htr) as (e & G1 & G2 & _). exact (H e G1 G2).
  - intros e e' H1 H1' H2 H2'. destruct (TO e H1 H2) as (tr & Htr & Hm), (TO e' H1' H2') as (tr' & Htr' & Hm'). rewrite (TU _ _ Htr' Htr) in Hm'. eapply means_fun; eauto.
Qed.
Print Assumptions C84_parse.

(** From the text of the grammar file to the text parsed: the parser is made if the regexes can be, and on
    ASCII text it gives the reductions of the expression written or reports a wrong token. *)
Theorem C84_file :
  forall text ast M, file_says text ast -> mixfix M ast ->
  forall parse_regex hash, (forall g lr0, gives text g -> items g = Ok lr0 -> collision_free hash lr0) ->
  (forall g, gives text g -> regexes_ok parse_regex g) ->
  exists l live acc, build parse_regex hash text = Ok l /\ splits parse_regex (l_grammar l) live acc /\
  forall input, ascii input -> exists ts rest syms, Tokenize live acc 0 input ts rest /\
    Forall2 (fun x z => exists y, nth_error (lex_syms (l_grammar l)) (snd (fst x)) = Some y /\ taken_for (l_grammar l) y z) ts syms /\
    ((exists e tr, mproper M 0 0 e /\ mwritten M e = syms /\ tree_ok (l_grammar l) tr /\ root (l_grammar l) tr = Some (SNon (mx_name M 0 0)) /\ yield tr = syms /\ mmeans (l_grammar l) M tr e /\
        lalr_parse l input = Ok (postorder tr)) \/
     ((forall e, mproper M 0 0 e -> mwritten M e <> syms) /\ lalr_parse l input = Panic PInvalidToken)).
Proof.
  intros text ast M Hsay HM parse hash Hc Hre.
  destruct (C51_reading text) as [HR _]. pose proof (proj2 (HR ast) Hsay) as Ea. pose proof (C52_file_ast _ _ Ea) as Hf.
  assert (Eg : exists g, grammar_from_ast ast = Ok g).
  { destruct HM as (_ & _ & (st & Hs & _) & _). unfold grammar_from_ast. rewrite Hs. destruct (fold_left add_prod ast _). eauto. }
  destruct Eg as [g Hg]. assert (Hgv : gives text g) by (exists ast; auto).
  destruct (C84_tables _ _ _ Hg Hf HM hash (fun lr0 => Hc g lr0 Hgv)) as (t & Ht & Hcl).
  pose proof (C81_lexer_end parse g) as HLx. pose proof (Hre g Hgv) as (R1 & R2 & R3).
  assert (Hb : exists l, build parse hash text = Ok l /\ l_grammar l = g /\ l_tables l = t).
  { unfold build. rewrite Ea. cbn [bind]. rewrite Hg. cbn [bind]. unfold lalr_new. destruct (from_grammar parse g) as [Lx|pn|]; [|destruct pn; tauto|contradiction].
    cbn [bind]. rewrite Ht. cbn [bind]. eexists. split; [reflexivity|]. auto. }
  destruct Hb as (l & Hb & Elg & Elt).
  destruct (C82_text_end _ _ _ _ Hb) as (ast' & st & lv & ac & Hsay' & Hg' & Hst & Hsp & H). rewrite (C51_unambiguous _ _ _ Hsay' Hsay) in *. clear ast' Hsay'.
  exists l, lv, ac. split; auto. split; auto. intros input Ha.
  destruct (H input) as (ts & rest & HT & [[Hn _]|(_ & syms & w & HF & Hw & H0 & Ho)]).
  { exfalso. apply Hn. eapply ascii_sliced; eauto. eapply tokenize_layout; eauto. }
  exists ts, rest, syms. split; auto. split; auto.
  assert (SY : forall l0, symbols (l_grammar l) w l0 -> l0 = syms).
  { intros l0 H1. unfold symbols in *. rewrite Hw in H1. clear -H1. revert l0 H1. induction syms as [|x s IH]; intros [|y l0] H1; try discriminate; auto. injection H1 as -> H1. f_equal. auto. }
  pose proof (m_ok _ _ HM) as Okm. assert (Hok : 0 < mx_sorts M /\ 0 <= mx_top M 0) by (split; [apply (mk_sort _ Okm)|lia]).
  destruct (m_start _ _ _ Hg' HM) as (st' & Hs' & En & _). rewrite Hst in Hs'. injection Hs' as <-. rewrite En in Ho.
  destruct (lalr_parse l input) as [ps|[]|] eqn:El; unfold outcome in Ho; try contradiction.
  - left. destruct Ho as (tr & j & Htr & _ & ->). destruct Htr as (Hto & Hr & Hy).
    destruct (tree_in _ M (m_wf _ _ _ Hg' HM) (m_fresh _ _ Hf HM) (m_R _ _ _ Hg' HM) Okm tr 0 0 Hok Hto Hr) as (e & G1 & G2 & G3). pose proof (SY _ Hy) as Ey. exists e, tr. rewrite <- G3. auto 10.
  - right. split; auto. destruct Ho as [Hns _]. intros e Hpe Ew. subst syms.
    destruct (tree_out _ M (m_R' _ _ _ Hg' HM) Okm e 0 0 Hpe) as (p & us & Hto & Hr & Hm & Hy).
    apply Hns; [rewrite Elg, Elt; exact Hcl|]. exists (mwritten M e). split; auto. rewrite <- Hy. split; [eapply tree_terminals; eauto|apply tree_derives; auto].
  - exfalso. apply Ho. rewrite Elg, Elt. exact Hcl.
  - exfalso. destruct Ho as [Ho _]. apply Ho. rewrite Elg, Elt. exact Hcl.
Qed.
Print Assumptions C84_file.

(** The associativity of the levels and the looseness of the operands inside are needed.  False for an
    operator that associates to neither side: E -> T "=" T | T; T -> "(" E ")" | "i" does not accept "i=i". *)
Theorem C84_nonassoc_refuted :
  exists ast g t tokens w, tables_of ast g t /\ well_formed g /\
    ast_rules ast = [([69], [SNon [84]; SStr [61]; SNon [84]]); ([69], [SNon [84]]); ([84], [SStr [40]; SNon [69]; SStr [41]]); ([84], [SStr [105]])]%N /\
    ended tokens w /\ symbols g w [SStr [105]; SStr [61]; SStr [105]]%N /\
    (forall st, find ap_start ast = Some st -> sentence g (ap_name st) w) /\ parse_impl g t tokens = Panic PInvalidToken.
Proof.
  witness [PS 69 [[V 84; T 61; V 84]; [V 84]]; P 84 [[T 40; V 69; T 41]; [T 105]]]%N Eg Et. exists [4; 3; 4; 0], [4; 3; 4]. split; [apply tables_of_any; auto|].
  split; [wf_ok Eg|]. split; [reflexivity|]. split; [split; [reflexivity|simpl; intuition discriminate]|]. open Eg Et. split; [compute_ok|]. split; [|compute_ok].
  intros s Hs. vm_compute in Hs. injection Hs as <-. cbn [ap_name].
  apply (sentence_of _ _ _ (Node 1 [Node 4 [Leaf (SStr [105]%N)]; Leaf (SStr [61]%N); Node 4 [Leaf (SStr [105]%N)]])). compute_ok.
Qed.
Print Assumptions C84_nonassoc_refuted.

(** False if an operand between two terminals is of a higher level: E -> E "," T | T; T -> "(" E ")" | "[" T "]" | "i"
    does not accept "i,i". *)
Theorem C84_levels_refuted :
  exists ast g t tokens w, tables_of ast g t /\ well_formed g /\
    ast_rules ast = [([69], [SNon [69]; SStr [44]; SNon [84]]); ([69], [SNon [84]]); ([84], [SStr [40]; SNon [69]; SStr [41]]); ([84], [SStr [91]; SNon [84]; SStr [93]]); ([84], [SStr [105]])]%N /\
    ended tokens w /\ symbols g w [SStr [105]; SStr [44]; SStr [105]]%N /\
    (forall st, find ap_start ast = Some st -> sentence g (ap_name st) w) /\ parse_impl g t tokens = Panic PInvalidToken.
Proof.
  witness [PS 69 [[V 69; T 44; V 84]; [V 84]]; P 84 [[T 40; V 69; T 41]; [T 91; V 84; T 93]; [T 105]]]%N Eg Et. exists [6; 3; 6; 0], [6; 3; 6]. split; [apply tables_of_any; auto|].
  split; [wf_ok Eg|]. split; [reflexivity|]. split; [split; [reflexivity|simpl; intuition discriminate]|]. open Eg Et. split; [compute_ok|]. split; [|compute_ok].
  intros s Hs. vm_compute in Hs. injection Hs as <-. cbn [ap_name].
  apply (sentence_of _ _ _ (Node 1 [Node 2 [Node 5 [Leaf (SStr [105]%N)]]; Leaf (SStr [44]%N); Node 5 [Leaf (SStr [105]%N)]])). compute_ok.
Qed.
Print Assumptions C84_levels_refuted.

(** A small language: statements in sequence, loops, and expressions with a conditional to the right, "+" and "-" to the left, "-"
    before an operand, calls and indexing after one. *)
Definition file_mix : str := lines [
  tx "export start S: (T) = ["; tx "<x: S> "";"" <y: A> => (x),"; tx "<x: A> => (x)"; tx "]";
  tx "export A: (T) = ["; tx """skip"" => (x),"; tx """print"" ""("" <x: E> "")"" => (x),"; tx """while"" <x: E> ""do"" <y: S> ""od"" => (x)"; tx "]";
  tx "export E: (T) = ["; tx "<x: C> ""?"" <y: E> "":"" <z: E> => (x),"; tx "<x: C> => (x)"; tx "]";
  tx "export C: (T) = ["; tx "<x: C> ""+"" <y: U> => (x),"; tx "<x: C> ""-"" <y: U> => (x),"; tx "<x: U> => (x)"; tx "]";
  tx "export U: (T) = ["; tx """-"" <x: U> => (x),"; tx "<x: W> => (x)"; tx "]";
  tx "export W: (T) = ["; tx "<x: W> ""("" <y: E> "")"" => (x),"; tx "<x: W> ""["" <y: E> ""]"" => (x),"; tx """("" <x: E> "")"" => (x),"; tx """i"" => (x)"; tx "]"].
Definition tk (s : string) := SStr (tx s).
Definition m_all : list (list (list form)) := [
  [[Form true (tk ";") [] true];
   [Form false (tk "skip") [] false; Form false (tk "print") [PTok (tk "("); PArg 1 (tk ")")] false; Form false (tk "while") [PArg 1 (tk "do"); PArg 0 (tk "od")] false]];
  [[Form true (tk "?") [PArg 1 (tk ":")] true];
   [Form true (tk "+") [] true; Form true (tk "-") [] true];
   [Form false (tk "-") [] true];
   [Form true (tk "(") [PArg 1 (tk ")")] false; Form true (tk "[") [PArg 1 (tk "]")] false; Form false (tk "(") [PArg 1 (tk ")")] false; Form false (tk "i") [] false]]].
Definition m_lang : mix := {|
  mx_sorts := 2; mx_name := fun s i => [nth i (nth s [[83; 65]; [69; 67; 85; 87]]%N []) 0%N]; mx_top := fun s => nth s [1; 3] 0;
  mx_left := fun s i => nth i (nth s [[true; true]; [false; true; false; true]] []) false;
  mx_forms := fun s i => nth i (nth s m_all []) [] |}.
Definition m_list : list (nat * nat * form) :=
  flat_map (fun s => flat_map (fun i => map (fun f => (s, i, f)) (nth i (nth s m_all []) [])) (seq 0 4)) [0; 1].
Lemma m_list_all s i f : is_form m_lang s i f <-> In (s, i, f) m_list.
Proof.
  split.
  - intros (Hs & Hi & Hf). cbn [m_lang mx_sorts mx_top mx_forms] in *. destruct s as [|[|s]]; [..|lia]; cbn in Hi.
    + destruct i as [|[|i]]; [..|lia]; cbn in Hf; repeat (destruct Hf as [<-|Hf]; [vm_compute; tauto|]); destruct Hf.
    + destruct i as [|[|[|[|i]]]]; [..|lia]; cbn in Hf; repeat (destruct Hf as [<-|Hf]; [vm_compute; tauto|]); destruct Hf.
  - intros H. vm_compute in H. repeat (destruct H as [H|H]; [injection H as <- <- <-; split; [vm_compute; lia|split; [vm_compute; lia|vm_compute; tauto]]|]). destruct H.
Qed.
Local Ltac each H := apply m_list_all in H; vm_compute in H; repeat (destruct H as [H|H]; [try (injection H; clear H; intros; subst)|]); [..|destruct H].
Lemma m_lang_ok : mix_ok m_lang.
Proof.
  constructor.
  - vm_compute. lia.
  - intros s i s' i' Hs Hi Hs' Hi' H. destruct s as [|[|s]], s' as [|[|s']]; try (cbn in *; lia); cbn in Hi, Hi';
      destruct i as [|[|[|[|i]]]], i' as [|[|[|[|i']]]]; try lia; try discriminate H; auto.
  - intros s Hs. destruct s as [|[|s]]; try (cbn in *; lia); discriminate.
  - intros s i f H x Hx. each H; vm_compute in Hx; repeat (destruct Hx as [<-|Hx]; [first [intros m; discriminate|vm_compute; lia]|]); destruct Hx.
  - intros s i j f f' H H' E1 E2. each H; each H'; try discriminate; first [discriminate E1|discriminate E2|auto].
  - intros s i f s' j f' t H E1 H' Ht. each H; try discriminate E1; each H'; vm_compute in Ht;
      repeat (destruct Ht as [Ht|Ht]; [first [discriminate Ht|injection Ht as <-; discriminate]|]); destruct Ht.
Qed.
Definition nm (s : string) := SNon (tx s).
Definition m_rules : list (str * list sym) :=
  [(tx "S", [nm "S"; tk ";"; nm "A"]); (tx "S", [nm "A"]);
   (tx "A", [tk "skip"]); (tx "A", [tk "print"; tk "("; nm "E"; tk ")"]); (tx "A", [tk "while"; nm "E"; tk "do"; nm "S"; tk "od"]);
   (tx "E", [nm "C"; tk "?"; nm "E"; tk ":"; nm "E"]); (tx "E", [nm "C"]);
   (tx "C", [nm "C"; tk "+"; nm "U"]); (tx "C", [nm "C"; tk "-"; nm "U"]); (tx "C", [nm "U"]);
   (tx "U", [tk "-"; nm "U"]); (tx "U", [nm "W"]);
   (tx "W", [nm "W"; tk "("; nm "E"; tk ")"]); (tx "W", [nm "W"; tk "["; nm "E"; tk "]"]); (tx "W", [tk "("; nm "E"; tk ")"]); (tx "W", [tk "i"])].
Definition v_ : mexp := MOp 1 3 (Form false (tk "i") [] false) [].
Definition if_ (a b c : mexp) := MOp 1 0 (Form true (tk "?") [PArg 1 (tk ":")] true) [a; b; c].
Definition seq_ (a b : mexp) := MOp 0 0 (Form true (tk ";") [] true) [a; b].
Definition skip_ : mexp := MOp 0 1 (Form false (tk "skip") [] false) [].
Definition m_prog : mexp :=
  seq_ (MOp 0 1 (Form false (tk "while") [PArg 1 (tk "do"); PArg 0 (tk "od")] false)
         [MOp 1 1 (Form true (tk "-") [] true) [MOp 1 2 (Form false (tk "-") [] true) [MOp 1 3 (Form true (tk "(") [PArg 1 (tk ")")] false) [v_; v_]]; v_];
          seq_ (MOp 0 1 (Form false (tk "print") [PTok (tk "("); PArg 1 (tk ")")] false) [if_ v_ v_ (if_ v_ v_ v_)]) skip_])
       skip_.
Local Ltac prop_ok := repeat (apply mp_op; [vm_compute; lia|apply m_list_all; vm_compute; tauto|vm_compute; repeat apply Forall2_cons; try apply Forall2_nil]).
Example C84_nonvacuous :
  (exists ast, file_says file_mix ast /\ mixfix m_lang ast) /\
  (forall g lr0, gives file_mix g -> items g = Ok lr0 -> collision_free ehash lr0) /\ (forall g, gives file_mix g -> regexes_ok reg g) /\
  run_text file_mix (tx "while -i(i)-i do print(i?i:i?i:i) ; skip od; skip") =
    Ok [16; 16; 12; 10; 7; 13; 12; 11; 10; 16; 12; 9; 7; 16; 12; 10; 16; 12; 10; 7; 16; 12; 10; 16; 12; 10; 7; 16; 12; 10; 7; 6; 6; 4; 2; 3; 1; 5; 2; 3; 1] /\
  run_text file_mix (tx "while i do skip") = Panic PInvalidToken /\
  mproper m_lang 0 0 m_prog /\
  mwritten m_lang m_prog = map tk ["while"; "-"; "i"; "("; "i"; ")"; "-"; "i"; "do"; "print"; "("; "i"; "?"; "i"; ":"; "i"; "?"; "i"; ":"; "i"; ")"; ";"; "skip"; "od"; ";"; "skip"]%string /\
  ~ mproper m_lang 0 0 (seq_ skip_ (seq_ skip_ skip_)).
Proof.
  assert (Ea : exists ast, parse_grammar file_mix = Ok ast /\ ast_rules ast = m_rules /\ (exists st, find ap_start ast = Some st /\ ap_name st = tx "S")).
  { let v := eval vm_compute in (parse_grammar file_mix) in match v with Ok ?a => exists a end. split; [vm_compute; reflexivity|]. split; [vm_compute; reflexivity|]. eexists. split; vm_compute; reflexivity. }
  destruct Ea as (ast & Ea & Er & Hst).
  assert (Hs : file_says file_mix ast) by (apply (C51_reading file_mix), Ea).
  assert (Hmix : mixfix m_lang ast).
  { unfold mixfix. rewrite Er. clear -Hst. split; [|split; [|split; [exact Hst|exact m_lang_ok]]].
    - intros A b. split.
      + assert (HP : forall s i, s < 2 -> i < nth s [1; 3] 0 -> mrule m_lang (mx_name m_lang s i) [SNon (mx_name m_lang s (S i))]) by (intros; apply mr_pass; auto).
        assert (HF : Forall (fun x => mrule m_lang (mx_name m_lang (fst (fst x)) (snd (fst x))) (map (slot_sym m_lang) (form_slots m_lang (fst (fst x)) (snd (fst x)) (snd x)))) m_list).
        { apply Forall_forall. intros [[s i] f] H. apply mr_form, m_list_all, H. }
        pose proof (HP 0 0 ltac:(lia) ltac:(simpl; lia)) as P1. pose proof (HP 1 0 ltac:(lia) ltac:(simpl; lia)) as P2.
        pose proof (HP 1 1 ltac:(lia) ltac:(simpl; lia)) as P3. pose proof (HP 1 2 ltac:(lia) ltac:(simpl; lia)) as P4. clear HP.
        change (mrule m_lang) with (id (mrule m_lang)) in *. set (R := id (mrule m_lang)) in *. clearbody R.
        vm_compute in P1, P2, P3, P4, HF. repeat match type of HF with Forall _ (_ :: _) => apply Forall_cons_iff in HF as [? HF] end.
        intros HI. vm_compute in HI. repeat (destruct HI as [HI|HI]; [injection HI as <- <-; assumption|]). destruct HI.
      + intros H. destruct H as [s i H1 H2|s i f H].
        * cbn in H1. destruct s as [|[|s]]; [..|lia]; cbn in H2; [destruct i as [|i]; [vm_compute; tauto|lia]|destruct i as [|[|[|i]]]; [vm_compute; tauto..|lia]].
        * each H; vm_compute; tauto.
    - vm_compute. repeat (constructor; [simpl; intuition discriminate|]). constructor. }
  split; [eauto|]. split; [intros; apply ehash_free|]. split.
  { intros g (ast' & H1 & H2). pose proof (C81_file_end reg ehash file_mix ltac:(intros; apply ehash_free)) as H.
    assert (HB : match build reg ehash file_mix with Ok _ => True | _ => False end) by (vm_compute; exact I).
    destruct (build reg ehash file_mix) as [l| |]; [|contradiction..]. destruct H as ((ast2 & H3 & H4) & H & _).
    rewrite (C51_unambiguous _ _ _ H1 H3) in H2. rewrite H2 in H4. injection H4 as ->. exact H. }
  do 2 (split; [vm_compute; reflexivity|]). split; [unfold m_prog; prop_ok|]. split; [vm_compute; reflexivity|].
  intros H. inversion H as [? ? ? ? ? _ _ HF]; subst. vm_compute in HF. inversion HF as [|? ? ? ? _ HF']; subst. inversion HF' as [|? ? ? ? HB _]; subst.
  inversion HB as [? ? ? ? ? Hj _ _]; subst. cbn in Hj. lia.
Qed.
