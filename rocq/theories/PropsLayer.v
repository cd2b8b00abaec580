(** Property C83: grammars of expressions. *)
From Coq Require Import String.
From Verif Require Import Base Text Regex Nfa NfaProofs Dfa Lex LexSpec LexNfa LexProofs Grammar GrammarSpec GrammarProofs First Item ItemSpec ItemProofs ItemPlain
  GrammarCheck Table TableSpec MergeProofs TableProofs TableFacts LexGrammar LexGrammarProofs Parse ParseSpec ParseCheck TreeFacts Auto ParseProofs ParseTerm ParseCycle ParseComplete
  Report ReportSpec ReportProofs ReportExact Lalr EndSpec EndProofs Utf8Spec Utf8Proofs GrammarFile GrammarFileSpec Witness IsoSpec Iso IsoGrammar
  PropsLex PropsGrammar PropsTable PropsParse PropsMerge PropsReport PropsEnd PropsGrammarFile Lisp PropsOutcome PropsParseEnd LayerSpec LayerProofs.
Local Open Scope list_scope.

Section Layered.
  Variables (ast : list aprod) (g : grammar) (L : layers).
  Hypothesis Hg : grammar_from_ast ast = Ok g.
  Hypothesis Hf : file_ast ast.
  Hypothesis HL : layered L ast.
  Notation E := (ly_name L).
  Notation n := (ly_top L).

  Lemma l_start : exists st, find ap_start ast = Some st /\ ap_name st = E 0 /\ wf_grammar g (E 0) /\ map shape (g_prods g) = (aug_name (E 0), [SNon (E 0)]) :: ast_rules ast.
  Proof using Hg HL.
    destruct HL as (_ & _ & (st & Hs & En) & _). destruct (prods_rules _ _ Hg) as (st' & Hs' & W & EP). rewrite Hs in Hs'. injection Hs' as <-. rewrite En in *.
    exists st. auto.
  Qed.
  Lemma l_prod p pr : nth_error (g_prods g) (S p) = Some pr <-> (exists e, nth_error (ast_rules ast) p = Some e /\ shape pr = e) /\ nth_error (g_prods g) (S p) = Some pr.
  Proof using Hg HL.
    split; [|tauto]. intros H. split; auto. destruct l_start as (_ & _ & _ & _ & EP). apply (map_nth_error shape) in H. rewrite EP in H. cbn [nth_error] in H. eauto.
  Qed.
  Lemma l_wf : wf_grammar g (E 0).
  Proof using Hg HL. destruct l_start as (st & _ & _ & W & _). exact W. Qed.
  Lemma l_plain : plain g.
  Proof using Hg Hf. apply (file_plain _ _ Hf Hg). Qed.
  Lemma l_R p pr : nth_error (g_prods g) p = Some pr -> p <> 0 -> lrule L (p_name pr) (p_syms pr).
  Proof using Hg HL.
    intros H H0. destruct p as [|p]; [congruence|]. apply l_prod in H as ((e & He & <-) & H). destruct HL as (HA & _). apply HA. apply nth_error_In in He. exact He.
  Qed.
  Lemma l_R' A b : lrule L A b -> exists p pr, p <> 0 /\ nth_error (g_prods g) p = Some pr /\ p_name pr = A /\ p_syms pr = b.
  Proof using Hg HL.
    intros H. destruct HL as (HA & _). apply HA in H. apply In_nth_error in H as [p Hp]. destruct l_start as (_ & _ & _ & _ & EP).
    assert (G : nth_error (map shape (g_prods g)) (S p) = Some (A, b)) by (rewrite EP; exact Hp). rewrite nth_error_map in G.
    destruct (nth_error (g_prods g) (S p)) as [pr|] eqn:Hpr; [|discriminate]. cbn [option_map] in G. injection G as Es.
    exists (S p), pr. split; [lia|]. split; auto.
  Qed.
  Lemma l_U p q pp pq : p <> 0 -> q <> 0 -> nth_error (g_prods g) p = Some pp -> nth_error (g_prods g) q = Some pq -> p_name pp = p_name pq -> p_syms pp = p_syms pq -> p = q.
  Proof using Hg HL.
    intros Hp Hq H H' E1 E2. destruct p as [|p], q as [|q]; try congruence. f_equal. apply l_prod in H as ((e & He & <-) & _), H' as ((e' & He' & <-) & _).
    destruct HL as (_ & HN & _). rewrite NoDup_nth_error in HN. apply HN; [apply nth_error_Some; congruence|]. rewrite He, He'. unfold shape. congruence.
  Qed.
  Lemma l_fresh i : i <= n -> aug_name (E 0) <> E i.
  Proof using Hf HL.
    intros Hi H. destruct (level_rule L i Hi) as [b Hb]. destruct HL as (HA & _). apply HA in Hb. unfold ast_rules in Hb. apply in_flat_map in Hb as (p & Hp & Hb).
    apply in_map_iff in Hb as (bd & Eb & _). injection Eb as En _. destruct Hf as [_ HF]. destruct (HF p Hp) as [Hid _]. rewrite En in Hid. eapply ident_no_quote; [exact Hid|]. symmetry. exact H.
  Qed.
  Lemma l_inj i j : i <= n -> j <= n -> E i = E j -> i = j.
  Proof using HL. destruct HL as (_ & _ & _ & H & _). apply H. Qed.
  Lemma l_nodup : NoDup (ly_tokens L).
  Proof using HL. destruct HL as (_ & _ & _ & _ & H & _). exact H. Qed.
  Lemma l_term : Forall terminal (ly_tokens L).
  Proof using HL. destruct HL as (_ & _ & _ & _ & _ & H). exact H. Qed.

  Lemma l_defined : ~ undefined_name g.
  Proof using Hg Hf HL.
    intros (p & pr & B & _ & Hp & Hi & Hn). destruct (body_names g L l_wf l_R l_term _ _ _ Hp Hi) as (i & Hin & ->). destruct (level_rule L i Hin) as [b Hb].
    destruct (l_R' _ _ Hb) as (q & pq & _ & Hq & En & _). apply Hn. exists pq. eauto using nth_error_In.
  Qed.
  Lemma l_follows : ~ left_follows g.
  Proof using Hg Hf HL.
    intros (p & pr & d & B & x & A & b & _ & Hp & Hd & Hx & Hder & _). pose proof (after_name g L l_wf l_R l_term _ _ _ _ _ Hp Hd Hx) as Ht.
    pose proof (derives_head g _ _ _ _ Ht Hder) as H. eapply Ht. symmetry. exact H.
  Qed.
End Layered.

(** ** Theorems *)

(** The tables are made, whatever the hash as long as no two cores share one, and no transition is missing. *)
Theorem C83_tables :
  forall ast g L, grammar_from_ast ast = Ok g -> file_ast ast -> layered L ast ->
  forall hash, (forall lr0, items g = Ok lr0 -> collision_free hash lr0) -> exists t, make_tables hash g = Ok t /\ closed g t.
Proof.
  intros ast g L Hg Hf HL hash Hc. destruct (l_plain _ _ Hg Hf) as [He _].
  pose proof (l_wf _ _ _ Hg HL) as W. pose proof (l_plain _ _ Hg Hf) as Hp. pose proof (l_R _ _ _ Hg HL) as R. pose proof (l_R' _ _ _ Hg HL) as R'.
  pose proof (l_U _ _ _ Hg HL) as U. pose proof (l_fresh _ _ Hf HL) as Fr. pose proof (l_inj _ _ HL) as Ij. pose proof (l_nodup _ _ HL) as Nd. pose proof (l_term _ _ HL) as Tm.
  destruct (C81_tables_outcome _ _ Hg He hash Hc) as (_ & _ & _ & _ & G). destruct G as [t Ht].
  - exact (l_defined _ _ _ Hg Hf HL).
  - exact (l_follows _ _ _ Hg Hf HL).
  - intros I HI. apply (states_settled g L); auto.
  - exists t. split; auto. apply (C28_two_partial _ _ Hg He) with (hash := hash); auto. intros I J K. apply (states_two g L); auto.
Qed.
Print Assumptions C83_tables.

(** The tables, however they were made, accept the expressions and nothing else; the reductions are those of a tree
    whose operators have the operands that precedence and associativity give them; there is one reading. *)
Theorem C83_parse :
  forall ast g L, grammar_from_ast ast = Ok g -> file_ast ast -> layered L ast ->
  forall hash t, make_tables hash g = Ok t ->
  forall tokens w, ended tokens w ->
  (forall ps, parse_impl g t tokens = Ok ps <->
     exists e tr, proper L 0 e /\ symbols g w (written L e) /\ parse_tree g (ly_name L 0) w tr /\ means tr e /\ ps = postorder tr) /\
  (parse_impl g t tokens = Panic PInvalidToken <-> forall e, proper L 0 e -> ~ symbols g w (written L e)) /\
  (forall e e', proper L 0 e -> proper L 0 e' -> symbols g w (written L e) -> symbols g w (written L e') -> e = e').
Proof.
  intros ast g L Hg Hf HL hash t Ht tokens w Hend.
  pose proof (l_wf _ _ _ Hg HL) as W. pose proof (l_R _ _ _ Hg HL) as R. pose proof (l_R' _ _ _ Hg HL) as R'.
  pose proof (l_U _ _ _ Hg HL) as U. pose proof (l_fresh _ _ Hf HL) as Fr. pose proof (l_inj _ _ HL) as Ij. pose proof (l_nodup _ _ HL) as Nd. pose proof (l_term _ _ HL) as Tm.
  destruct (file_plain _ _ Hf Hg) as [Hp Hfr]. destruct (l_start _ _ _ Hg HL) as (st & Hs & En & _). pose proof Hp as [He _].
  assert (Hcl : closed g t) by (apply (C28_two_partial _ _ Hg He) with (hash := hash); auto; intros I J K; apply (states_two g L); auto).
  assert (TO : forall e, proper L 0 e -> symbols g w (written L e) -> exists tr, parse_tree g (ly_name L 0) w tr /\ means tr e).
  { intros e Hpe Hw. destruct (tree_out g L R' Tm 0 e Hpe ltac:(lia)) as (p & ts & Ho & Hr & Hm & Hy). exists (Node p ts). split; auto. split; auto. split; auto. rewrite Hy. exact Hw. }
  assert (TI : forall tr, parse_tree g (ly_name L 0) w tr -> exists e, proper L 0 e /\ symbols g w (written L e) /\ means tr e).
  { intros tr (Ho & Hr & Hy). destruct (tree_in g L W Fr R Ij Tm tr 0 ltac:(lia) Ho Hr) as (e & G1 & G2 & G3). exists e. rewrite <- G3. auto. }
  assert (TU : forall tr tr', parse_tree g (ly_name L 0) w tr -> parse_tree g (ly_name L 0) w tr' -> tr = tr').
  { rewrite <- En. intros tr tr'. exact (C33_unambiguous_partial _ _ _ Hg Hs Hp Hfr hash t Ht Hcl w tr tr'). }
  destruct (C30_accepts_exactly_the_sentences_partial _ _ _ Hg Hs Hp Hfr hash t Ht Hcl tokens w Hend) as [A1 A2].
  assert (SE : sentence g (ap_name st) w <-> exists tr, parse_tree g (ly_name L 0) w tr).
  { rewrite En. split.
    - intros (l & Hl & Htl & Hd). destruct (derives_forest g [SNon (ly_name L 0)] l Hd Htl) as (ts & Ho & Hm & Hy). destruct ts as [|tr [|tr' ts]]; try discriminate Hm.
      injection Hm as Hm. inversion Ho; subst. exists tr. split; auto. split; auto. cbn [flat_map] in Hl. rewrite app_nil_r in Hl. exact Hl.
    - intros (tr & Ho & Hr & Hy). exists (yield tr). split; auto. split; [eapply tree_terminals; eauto|apply tree_derives; auto]. }
  assert (SOUND : forall ps, parse_impl g t tokens = Ok ps -> exists tr, parse_tree g (ly_name L 0) w tr /\ ps = postorder tr).
  { intros ps H. apply (C30_accepts_iff _ _ _ Hg Hs Hp Hfr hash t Ht tokens w ps Hend) in H as (tr & j & H1 & _ & H2). rewrite En in H1. eauto. }
  split; [|split].
  - intros ps. split.
    + intros H. destruct (SOUND ps H) as (tr & Htr & ->). destruct (TI _ Htr) as (e & G1 & G2 & G3). exists e, tr. auto.
    + intros (e & tr & _ & _ & Htr & _ & ->). destruct (proj2 A1 (proj2 SE (ex_intro _ tr Htr))) as [ps H]. destruct (SOUND ps H) as (tr' & Htr' & ->). rewrite (TU _ _ Htr Htr'). exact H.
  - rewrite A2, SE. split.
    + intros H e Hpe Hw. destruct (TO e Hpe Hw) as (tr & Htr & _). eauto.
    + intros H (tr & Htr). destruct (TI _ Htr) as (e & G1 & G2 & _). exact (H e G1 G2).
  - intros e e' H1 H1' H2 H2'. destruct (TO e H1 H2) as (tr & Htr & Hm), (TO e' H1' H2') as (tr' & Htr' & Hm'). rewrite (TU _ _ Htr' Htr) in Hm'. eapply means_fun; eauto.
Qed.
Print Assumptions C83_parse.

(** From the text of the grammar file to the text parsed: the parser is made if the regexes can be, and on
    ASCII text it gives the reductions of the expression written or reports a wrong token. *)
Theorem C83_file :
  forall text ast L, file_says text ast -> layered L ast ->
  forall parse_regex hash, (forall g lr0, gives text g -> items g = Ok lr0 -> collision_free hash lr0) ->
  (forall g, gives text g -> regexes_ok parse_regex g) ->
  exists l live acc, build parse_regex hash text = Ok l /\ splits parse_regex (l_grammar l) live acc /\
  forall input, ascii input -> exists ts rest syms, Tokenize live acc 0 input ts rest /\
    Forall2 (fun x z => exists y, nth_error (lex_syms (l_grammar l)) (snd (fst x)) = Some y /\ taken_for (l_grammar l) y z) ts syms /\
    ((exists e tr, proper L 0 e /\ written L e = syms /\ tree_ok (l_grammar l) tr /\ root (l_grammar l) tr = Some (SNon (ly_name L 0)) /\ yield tr = syms /\ means tr e /\
        lalr_parse l input = Ok (postorder tr)) \/
     ((forall e, proper L 0 e -> written L e <> syms) /\ lalr_parse l input = Panic PInvalidToken)).
Proof.
  intros text ast L Hsay HL parse hash Hc Hre.
  destruct (C51_reading text) as [HR _]. pose proof (proj2 (HR ast) Hsay) as Ea. pose proof (C52_file_ast _ _ Ea) as Hf.
  assert (Eg : exists g, grammar_from_ast ast = Ok g).
  { destruct HL as (_ & _ & (st & Hs & _) & _). unfold grammar_from_ast. rewrite Hs. destruct (fold_left add_prod ast _). eauto. }
  destruct Eg as [g Hg]. assert (Hgv : gives text g) by (exists ast; auto).
  assert (Hun : forall g', gives text g' -> g' = g) by (intros g' (ast' & H1 & H2); rewrite (C51_unambiguous _ _ _ H1 Hsay) in H2; congruence).
  destruct (C83_tables _ _ _ Hg Hf HL hash (fun lr0 => Hc g lr0 Hgv)) as (t & Ht & Hcl).
  pose proof (C81_lexer_end parse g) as HLx. pose proof (Hre g Hgv) as (R1 & R2 & R3).
  assert (Hb : exists l, build parse hash text = Ok l /\ l_grammar l = g /\ l_tables l = t).
  { unfold build. rewrite Ea. cbn [bind]. rewrite Hg. cbn [bind]. unfold lalr_new. destruct (from_grammar parse g) as [Lx|pn|]; [|destruct pn; tauto|contradiction].
    cbn [bind]. rewrite Ht. cbn [bind]. eexists. split; [reflexivity|]. auto. }
  destruct Hb as (l & Hb & Elg & Elt).
  destruct (C82_text_end _ _ _ _ Hb) as (ast' & st & lv & ac & Hsay' & Hg' & Hst & Hsp & H). rewrite (C51_unambiguous _ _ _ Hsay' Hsay) in *. clear ast' Hsay'.
  exists l, lv, ac. split; auto. split; auto. intros input Ha.
  destruct (H input) as (ts & rest & HT & [[Hn _]|(_ & syms & w & HF & Hw & H0 & Ho)]).
  { exfalso. apply Hn. eapply ascii_sliced; eauto. eapply tokenize_layout; eauto. }
  exists ts, rest, syms. split; auto. split; auto.
  destruct (C83_parse _ _ _ Hg' Hf HL hash t) with (tokens := w ++ [0]) (w := w) as (P1 & P2 & _); [rewrite Elg; exact Ht|split; [reflexivity|exact H0]|].
  assert (SY : forall l0, symbols (l_grammar l) w l0 -> l0 = syms).
  { intros l0 H1. unfold symbols in *. rewrite Hw in H1. clear -H1. revert l0 H1. induction syms as [|x s IH]; intros [|y l0] H1; try discriminate; auto. injection H1 as -> H1. f_equal. auto. }
  destruct (l_start _ _ _ Hg' HL) as (st' & Hs' & En & _). rewrite Hst in Hs'. injection Hs' as <-. rewrite En in Ho.
  destruct (lalr_parse l input) as [ps|[]|] eqn:El; unfold outcome in Ho; try contradiction.
  - left. destruct Ho as (tr & j & Htr & _ & ->). destruct Htr as (Hto & Hr & Hy).
    pose proof (l_wf _ _ _ Hg' HL) as W. pose proof (l_R _ _ _ Hg' HL) as R. pose proof (l_fresh _ _ Hf HL) as Fr. pose proof (l_inj _ _ HL) as Ij. pose proof (l_term _ _ HL) as Tm.
    destruct (tree_in _ L W Fr R Ij Tm tr 0 ltac:(lia) Hto Hr) as (e & G1 & G2 & G3). pose proof (SY _ Hy) as Ey. exists e, tr. rewrite <- G3. auto 10.
  - right. split; auto. destruct Ho as [Hns _]. intros e Hpe Ew. subst syms.
    destruct (tree_out _ L (l_R' _ _ _ Hg' HL) (l_term _ _ HL) 0 e Hpe ltac:(lia)) as (p & us & Hto & Hr & Hm & Hy).
    apply Hns; [rewrite Elg, Elt; exact Hcl|]. exists (written L e). split; auto. rewrite <- Hy. split; [eapply tree_terminals; eauto|apply tree_derives; auto].
  - exfalso. apply Ho. rewrite Elg, Elt. exact Hcl.
  - exfalso. destruct Ho as [Ho _]. apply Ho. rewrite Elg, Elt. exact Hcl.
Qed.
Print Assumptions C83_file.

(** A calculator: "+" and "-" to the left, "*" above, "^" to the right above that. *)
Definition file_calc : str := lines [
  tx "export start E: (T) = ["; tx "<x: E> ""+"" <y: T> => (x),"; tx "<x: E> ""-"" <y: T> => (x),"; tx "<x: T> => (x)"; tx "]";
  tx "export T: (T) = ["; tx "<x: T> ""*"" <y: W> => (x),"; tx "<x: W> => (x)"; tx "]";
  tx "export W: (T) = ["; tx "<x: F> ""^"" <y: W> => (x),"; tx "<x: F> => (x)"; tx "]";
  tx "export F: (T) = ["; tx """("" <x: E> "")"" => (x),"; tx """i"" => (x),"; tx """j"" => (x)"; tx "]"].
Definition l_calc : layers := {|
  ly_name := fun i => [nth i [69; 84; 87; 70]%N 0%N]; ly_top := 3;
  ly_left := fun i => match i with 0 | 1 => true | _ => false end;
  ly_ops := fun i => nth i [[SStr [43]%N; SStr [45]%N]; [SStr [42]%N]; [SStr [94]%N]] [];
  ly_open := SStr [40]%N; ly_close := SStr [41]%N; ly_atoms := [SStr [105]; SStr [106]]%N |}.
Definition i_ := SStr [105]%N.
Definition j_ := SStr [106]%N.
Definition op_ (c : N) := EBin (SStr [c]).
Example C83_nonvacuous :
  (exists ast, file_says file_calc ast /\ layered l_calc ast) /\
  (forall g lr0, gives file_calc g -> items g = Ok lr0 -> collision_free ehash lr0) /\ (forall g, gives file_calc g -> regexes_ok reg g) /\
  run_text file_calc (tx "i - j - i * j ^ i ^ j") = Ok [9; 7; 5; 3; 10; 7; 5; 2; 9; 7; 5; 10; 9; 10; 7; 6; 6; 4; 2] /\
  run_text file_calc (tx "i - (j - i)") = Ok [9; 7; 5; 3; 10; 7; 5; 3; 9; 7; 5; 2; 8; 7; 5; 2] /\
  run_text file_calc (tx "i - * j") = Panic PInvalidToken /\
  proper l_calc 0 (op_ 45%N (op_ 45%N (EAtom i_) (EAtom j_)) (op_ 42%N (EAtom i_) (op_ 94%N (EAtom j_) (op_ 94%N (EAtom i_) (EAtom j_))))) /\
  ~ proper l_calc 0 (op_ 45%N (EAtom i_) (op_ 45%N (EAtom j_) (EAtom i_))).
Proof.
  destruct (parse_grammar file_calc) as [ast| |] eqn:Ea; [|vm_compute in Ea; discriminate Ea..].
  assert (Hs : file_says file_calc ast) by (apply (C51_reading file_calc), Ea).
  assert (Hlay : layered l_calc ast).
  { assert (HE : exists r, r = ast_rules ast) by eauto. destruct HE as [r Hr]. vm_compute in Ea. injection Ea as <-. unfold layered. rewrite <- Hr. vm_compute in Hr. subst r.
    split; [|split; [|split; [|split; [|split]]]].
    - intros A b. split.
      + intros H. repeat (destruct H as [H|H]; [injection H as <- <-|]); [..|destruct H].
        * apply (lr_left l_calc 0); simpl; auto; lia.
        * apply (lr_left l_calc 0); simpl; auto; lia.
        * apply (lr_pass l_calc 0). simpl. lia.
        * apply (lr_left l_calc 1); simpl; auto; lia.
        * apply (lr_pass l_calc 1). simpl. lia.
        * apply (lr_right l_calc 2); simpl; auto; lia.
        * apply (lr_pass l_calc 2). simpl. lia.
        * apply (lr_paren l_calc).
        * apply (lr_atom l_calc). simpl. auto.
        * apply (lr_atom l_calc). simpl. auto.
      + intros H. destruct H as [i op Hi Hl Ho|i op Hi Hl Ho|i Hi| |a Ha]; cbn [l_calc ly_top ly_left ly_atoms] in *.
        * destruct i as [|[|[|i]]]; try discriminate Hl; cbn in Ho; repeat (destruct Ho as [<-|Ho]; [simpl; tauto|]); destruct Ho.
        * destruct i as [|[|[|i]]]; try discriminate Hl; [|lia]. cbn in Ho. repeat (destruct Ho as [<-|Ho]; [simpl; tauto|]); destruct Ho.
        * destruct i as [|[|[|i]]]; [simpl; tauto..|lia].
        * simpl; tauto.
        * repeat (destruct Ha as [<-|Ha]; [simpl; tauto|]); destruct Ha.
    - repeat (constructor; [simpl; intuition discriminate|]). constructor.
    - eexists. split; reflexivity.
    - intros i j Hi Hj H. cbn [l_calc ly_top ly_name] in *. destruct i as [|[|[|[|i]]]], j as [|[|[|[|j]]]]; try lia; discriminate H.
    - vm_compute. repeat (constructor; [simpl; intuition discriminate|]). constructor.
    - vm_compute. repeat (constructor; [intros m; discriminate|]). constructor. }
  split; [eauto|]. split; [intros; apply ehash_free|]. split.
  { intros g (ast' & H1 & H2). pose proof (C81_file_end reg ehash file_calc ltac:(intros; apply ehash_free)) as H.
    destruct (build reg ehash file_calc) as [l| |] eqn:E; [|vm_compute in E; discriminate E..]. destruct H as ((ast2 & H3 & H4) & H & _).
    rewrite (C51_unambiguous _ _ _ H1 H3) in H2. rewrite H2 in H4. injection H4 as ->. exact H. }
  do 3 (split; [vm_compute; reflexivity|]). split.
  - assert (A : forall i, proper l_calc i (EAtom i_)) by (intros; apply pr_atom; simpl; auto).
    assert (B : forall i, proper l_calc i (EAtom j_)) by (intros; apply pr_atom; simpl; auto).
    apply (pr_left l_calc 0 0); simpl; auto; [apply (pr_left l_calc 0 0); simpl; auto; lia|].
    apply (pr_left l_calc 1 1); simpl; auto. apply (pr_right l_calc 2 2); simpl; auto. apply (pr_right l_calc 2 2); simpl; auto.
  - assert (C : forall i e1 e2, 1 <= i -> ~ proper l_calc i (op_ 45%N e1 e2)).
    { intros i e1 e2 Hi H. inversion H as [| | ? j ? ? ? Hj Hn Hl Ho _ _|? j ? ? ? Hj Hn Hl Ho _ _]; subst; cbn [l_calc ly_top ly_ops] in *;
        (destruct j as [|[|[|j]]]; [lia|cbn in Ho; intuition discriminate|cbn in Ho; intuition discriminate|lia]). }
    intros H. inversion H as [| | ? j ? ? ? Hj Hn Hl Ho H1 H2|? j ? ? ? Hj Hn Hl Ho H1 H2]; subst; cbn [l_calc ly_top ly_ops ly_left] in *.
    + apply C in H2; [exact H2|lia].
    + destruct j as [|[|[|j]]]; try discriminate Hl; [|lia]. cbn in Ho. intuition discriminate.
Qed.
