(** Property C90: using a grammar of operators with lists. *)
From Coq Require Import String.
From Verif Require Import Base Text Regex Nfa NfaProofs Dfa Lex LexSpec LexNfa LexProofs Grammar GrammarSpec GrammarProofs First Item ItemSpec ItemProofs ItemPlain
  GrammarCheck Table TableSpec MergeProofs TableProofs TableFacts LexGrammar LexGrammarProofs Parse ParseSpec ParseCheck TreeFacts Auto ParseProofs ParseTerm ParseCycle ParseComplete
  Report ReportSpec ReportProofs ReportExact Lalr EndSpec EndProofs Utf8Spec Utf8Proofs GrammarFile GrammarFileSpec Witness IsoSpec Iso IsoGrammar
  PropsLex PropsGrammar PropsTable PropsParse PropsMerge PropsReport PropsEnd PropsGrammarFile Lisp PropsOutcome PropsParseEnd PropsCost LayerProofs SeqSpec SeqProofs SeqEvalSpec SeqUseSpec SeqUse
  PropsSeq PropsSeqType.
From Verif Require MixUse PropsMixUse.
Local Open Scope list_scope.

Section Use.
  Variables (ast : list aprod) (g : grammar) (M : lang).
  Hypothesis Hg : grammar_from_ast ast = Ok g.
  Hypothesis Hf : file_ast ast.
  Hypothesis HM : listfix M ast.
  Notation E := (lg_name M).

  Lemma u_zero : SeqProofs.ok M 0 0.
  Proof using HM. split; [apply (mk_sort _ (m_ok _ _ HM))|lia]. Qed.
  Lemma u_sentence w : sentence g (E 0 0) w <-> exists e, lproper M 0 0 e /\ symbols g w (lwritten M e).
  Proof using Hg Hf HM.
    split.
    - intros (l & Hl & Htl & Hd). destruct (derives_forest g [SNon (E 0 0)] l Hd Htl) as (ts & Ho & Hm & Hy). destruct ts as [|tr [|tr' ts]]; try discriminate Hm.
      injection Hm as Hm. inversion Ho; subst. cbn [flat_map] in Hl. rewrite app_nil_r in Hl.
      destruct (tree_in g M (m_wf _ _ _ Hg HM) (m_fresh _ _ Hf HM) (m_fresh' _ _ Hf HM) (m_R _ _ _ Hg HM) (m_ok _ _ HM) tr 0 0 u_zero) as (e & _ & G2 & G3); auto. exists e. rewrite <- G3. auto.
    - intros (e & He & Hw). destruct (tree_out g M (m_R' _ _ _ Hg HM) (m_ok _ _ HM) e 0 0 He) as (p & ts & Ho & Hr & _ & Hy). cbn [said hname map concat] in Hy, Hr. rewrite app_nil_r in Hy.
      exists (lwritten M e). rewrite <- Hy in *. split; auto. split; [eapply tree_terminals; eauto|apply tree_derives; auto].
  Qed.
  (** What is written can be given by tokens. *)
  Lemma u_tokens l e s i l' : lproper M s i e -> lwritten M e = l ++ l' -> exists v, symbols g v l' /\ ~ In 0 v.
  Proof using Hg HM.
    intros He El. assert (G : forall x, In x (lwritten M e) -> exists k, nth_error (g_tokens g) (S k) = Some x).
    { destruct (tree_out g M (m_R' _ _ _ Hg HM) (m_ok _ _ HM) e s i He) as (p & ts & Ho & _ & _ & Hy). cbn [said map concat] in Hy. rewrite app_nil_r in Hy. rewrite <- Hy.
      clear Hy.
      clear El He e. remember (Node p ts) as tr eqn:Et. clear -Hg HM Ho Et.
      assert (GG : forall tr, tree_ok g tr -> (exists y, tr = Leaf y) \/ forall x, In x (yield tr) -> exists k, nth_error (g_tokens g) (S k) = Some x).
      { clear -Hg HM. induction tr as [y|p ts IH] using tree_ind'; intros Ho; [left; eauto|right]. inversion Ho as [|? pr ? Hp Hts Hm]; subst.
        intros x Hx. cbn [yield] in Hx. apply in_flat_map in Hx as (t & Ht & Hx). rewrite Forall_forall in IH, Hts.
        destruct (IH t Ht (Hts t Ht)) as [(y & ->)|H]; [|auto]. destruct Hx as [<-|[]].
        assert (In (Some y) (map Some (p_syms pr))) as Hy by (rewrite <- Hm; apply in_map_iff; exists (Leaf y); auto). apply in_map_iff in Hy as (y' & E0 & Hy). injection E0 as ->.
        destruct (wg_tokens _ _ (m_wf _ _ _ Hg HM)) as (tl & Etl & _ & Hin). rewrite Etl. cbn [nth_error]. apply In_nth_error, Hin. eauto using nth_error_In. }
      destruct (GG tr Ho) as [(y & ->)|H]; [discriminate|exact H]. }
    assert (G' : forall x, In x l' -> exists k, nth_error (g_tokens g) (S k) = Some x) by (intros x Hx; apply G; rewrite El; apply in_or_app; auto). clear -G'.
    induction l' as [|x l' IH]; [exists []; split; [reflexivity|intros []]|]. destruct IH as (v & Hv & Hz); [intros; apply G'; right; auto|].
    destruct (G' x (or_introl eq_refl)) as (k & Hk). exists (S k :: v). split; [unfold symbols in *; cbn [map]; rewrite Hk, Hv; reflexivity|]. intros [H|H]; [lia|auto].
  Qed.
  Lemma u_productive : linhabited M -> all_productive g.
  Proof using Hg HM.
    intros HI p x Hp Hx. destruct (In_nth_error _ _ Hp) as [k Hk].
    assert (D : terminal x \/ exists B, x = SNon B) by (destruct x; [left; discriminate|right; eauto|left; discriminate..]). destruct D as [D|[B ->]]; [exists [x]; split; [repeat constructor; auto|constructor]|].
    assert (HE : forall s i, s < lg_sorts M -> i <= lg_top M s -> exists l, Forall terminal l /\ derives g [SNon (E s i)] l).
    { intros s i Hs Hi. destruct (HI s i Hs Hi) as [e He]. destruct (tree_out g M (m_R' _ _ _ Hg HM) (m_ok _ _ HM) e s i He) as (q & ts & Ho & Hr & _ & Hy).
      exists (yield (Node q ts)). split; [eapply tree_terminals; eauto|apply tree_derives; auto]. }
    destruct (body_names g M (m_wf _ _ _ Hg HM) (m_R _ _ _ Hg HM) (m_ok _ _ HM) _ _ _ Hk Hx) as [(s & i & [Hs Hi] & ->)|(n & Hn & ->)]; [auto|].
    destruct (HI (ls_sort M n) 0) as [e He]; [apply (mk_list _ (m_ok _ _ HM) n Hn)|lia|]. destruct (fills_out g M (m_R' _ _ _ Hg HM) (m_ok _ _ HM) (HList n) [e]) as (q & ts & Ho & Hr & _ & Hy); [exact Hn|constructor; auto|constructor; [|constructor]; intros; apply (tree_out g M (m_R' _ _ _ Hg HM) (m_ok _ _ HM)); auto|].
    exists (yield (Node q ts)). split; [eapply tree_terminals; eauto|apply tree_derives; auto].
  Qed.
End Use.

(** ** Theorems *)

(** A rejected text is reported at the first wrong token: what is before it begins an expression, and with it nothing does;
    if the report is at the end, the text begins an expression and is none. *)
Theorem C90_report :
  forall ast g M, grammar_from_ast ast = Ok g -> file_ast ast -> listfix M ast -> linhabited M ->
  forall hash t, make_tables hash g = Ok t ->
  forall tokens w r, ended tokens w -> parse_report g t tokens = Some r ->
  rp_pos r <= length w /\ nth_error tokens (rp_pos r) = Some (rp_token r) /\
  (exists e l l', lproper M 0 0 e /\ lwritten M e = l ++ l' /\ symbols g (firstn (rp_pos r) w) l) /\
  (rp_token r <> 0 -> forall e l l', lproper M 0 0 e -> lwritten M e = l ++ l' -> ~ symbols g (firstn (rp_pos r) w ++ [rp_token r]) l) /\
  (rp_token r = 0 -> rp_pos r = length w /\ forall e, lproper M 0 0 e -> ~ symbols g w (lwritten M e)).
Proof.
  intros ast g M Hg Hf HM HI hash t Ht tokens w r Hend Hr. destruct (file_plain _ _ Hf Hg) as [Hp Hfr]. destruct (m_start _ _ _ Hg HM) as (st & Hs & En & _).
  destruct (C55_first_wrong_partial _ _ _ Hg Hs Hp Hfr hash t Ht tokens w r Hend Hr) as (A1 & A2 & A3 & A4). rewrite En in *.
  specialize (A3 (u_productive _ _ _ Hg HM HI)). specialize (A4 (m_closed _ _ _ Hg Hf HM hash t Ht)).
  split; auto. split; auto. split.
  - destruct A3 as (v & Hv). apply (u_sentence _ _ _ Hg Hf HM) in Hv as (e & He & Hw). unfold symbols in Hw. rewrite map_app in Hw.
    destruct (map_eq_app _ _ _ _ (eq_sym Hw)) as (l & l' & El & H1 & H2). exists e, l, l'. split; auto. split; auto. unfold symbols. congruence.
  - unfold can_follow in A4. destruct (Nat.eqb_spec (rp_token r) 0) as [E0|E0]; (split; [|intros E1; try contradiction]).
    + intros Hn. contradiction.
    + destruct Hend as [-> Hz]. assert (Hpos : rp_pos r = length w).
      { destruct (Nat.eq_dec (rp_pos r) (length w)) as [D|D]; [exact D|]. exfalso. rewrite nth_error_app1 in A2 by lia. apply nth_error_In in A2. rewrite E0 in A2. auto. }
      split; auto. intros e He Hw. apply A4. rewrite Hpos, firstn_all. apply (u_sentence _ _ _ Hg Hf HM). eauto.
    + intros _ e l l' He El Hw. apply A4. destruct (u_tokens _ _ _ Hg HM l e 0 0 l' He El) as (v & Hv & _). exists v. apply (u_sentence _ _ _ Hg Hf HM). exists e. split; auto.
      unfold symbols in *. rewrite El, !map_app. f_equal; auto. rewrite <- map_app. exact Hw.
Qed.
Print Assumptions C90_report.

(** Parsing an expression takes a number of steps linear in the tokens, whatever the number of rules: at most two more than the highest level
    for each token, and one for the token. *)
Theorem C90_linear :
  forall ast g M, grammar_from_ast ast = Ok g -> file_ast ast -> listfix M ast ->
  forall hash t, make_tables hash g = Ok t ->
  forall tokens w ps K, ended tokens w -> parse_impl g t tokens = Ok ps -> (forall s, s < lg_sorts M -> lg_top M s <= K) ->
  length ps <= (K + 2) * length w /\
  exists a k c, nth_error tokens 0 = Some a /\ nsteps (parse_step g t tokens) k (parse_init a) c /\ parse_step g t tokens c = inr (Ok ps) /\ k <= (K + 3) * length w.
Proof.
  intros ast g M Hg Hf HM hash t Ht tokens w ps K Hend H HK. destruct (file_plain _ _ Hf Hg) as [Hp Hfr].
  destruct (C89_reductions _ _ _ Hg Hf HM hash t Ht tokens w ps Hend H) as (e & He & Hw & El).
  assert (L : length ps <= (K + 2) * length w).
  { rewrite El. pose proof (rules_size M K e HK 0 0 He) as H1. pose proof (written_size M e 0 0 He) as H2.
    assert (length w = length (lwritten M e)) as -> by (unfold symbols in Hw; apply (f_equal (@length _)) in Hw; rewrite !map_length in Hw; exact Hw). nia. }
  split; auto.
  destruct (C63_parse_linear_partial _ _ Hg Hp hash t Ht tokens w Hend) as (a & Ea & _ & Hdep).
  destruct (C31_terminates_partial _ _ Hg Hp Hfr hash t Ht (m_closed _ _ _ Hg Hf HM hash t Ht) tokens w Hend) as (a' & n & c & Ea' & Hn & Hc).
  rewrite Ea in Ea'. injection Ea' as <-. exists a, n, c. rewrite H in Hc. split; auto. split; auto. split; auto.
  pose proof (PropsMixUse.steps_count _ _ _ _ _ _ Hn) as Hk. destruct (Hdep n c Hn) as [_ Hi].
  assert (ps_trace c = ps) as Htr; [|rewrite Htr in Hk; nia].
  unfold parse_step in Hc. destruct (ps_stack c) as [|q st]; [discriminate|]. destruct (tbl_get (t_action t) q (ps_a c)) as [[j|p|]|]; try congruence.
  - destruct (next_token tokens (ps_i c) (ps_a c)); discriminate.
  - destruct (get_production g p) as [pr|]; [|discriminate]. destruct (_ <? _); [discriminate|]. destruct (skipn _ _) as [|q' st']; [discriminate|]. destruct (tbl_get _ _ _); discriminate.
Qed.
Print Assumptions C90_linear.

(** The tables have at most one state for each position after a symbol of a rule, and the first one. *)
Theorem C90_states :
  forall ast g M, grammar_from_ast ast = Ok g -> file_ast ast -> listfix M ast ->
  forall hash t, make_tables hash g = Ok t ->
  length (t_states t) <= 1 + list_sum (map (fun p => length (p_syms p)) (g_prods g)).
Proof.
  intros ast g M Hg Hf HM hash t Ht. pose proof (m_plain _ _ Hg Hf) as [He _].
  pose proof (m_wf _ _ _ Hg HM) as W. pose proof (m_R _ _ _ Hg HM) as R. pose proof (m_R' _ _ _ Hg HM) as R'.
  pose proof (m_U _ _ _ Hg HM) as U. pose proof (m_fresh _ _ Hf HM) as Fr. pose proof (m_fresh' _ _ Hf HM) as Fr'. pose proof (m_ok _ _ HM) as Okm.
  destruct (C26_states_are_lalr _ _ Hg He _ _ Ht) as (H1 & _ & H3 & _). cbn [Nat.add]. rewrite <- MixUse.positions_length.
  set (shows := fun i z => exists s, nth_error (t_states t) i = Some s /\ forall p d, (exists k, has s p d k) <-> core g M z p d).
  apply (MixUse.rel_count (fun i x => exists z, valid g M z /\ shows i z /\ rep g M z x)).
  - intros i Hi. destruct (nth_error (t_states t) i) as [s|] eqn:Es; [|apply nth_error_None in Es; lia].
    destruct (H1 i s Es) as (I & HI & Hq). destruct (states_shaped g M W Fr Fr' R R' U Okm I HI) as (z & c & V & Hc & EI).
    destruct (rep_some g M W R' Okm z V) as (x & Hx & Hrep). exists x. split; auto. exists z. split; auto. split; auto. exists s. split; auto.
    intros p d. rewrite <- (core_ok g M W R' Okm z c p d V Hc). split; intros [k Hk].
    + apply Hq, (lalr_shape g M W Fr Fr' R R' U Okm I z c HI EI V Hc) in Hk as (c' & Hc' & Hk). apply (core_ok g M W R' Okm z c p d V Hc), (sset_core g M W R' Okm z c' p d k V Hc' Hk).
    + exists k. apply Hq. apply (lalr_shape g M W Fr Fr' R R' U Okm I z c HI EI V Hc). eauto.
  - intros i j x _ _ (z & V & (s & Hs & C) & Hrep) (z' & V' & (s' & Hs' & C') & Hrep').
    assert (z = z') as <- by (eapply rep_inj; eauto). eapply H3; eauto. intros p d. rewrite C, C'. tauto.
Qed.
Print Assumptions C90_states.


(** The grammar of C89: max(d,) is wrong at the fifth token, max(d,d at its end. *)
Definition tok_no (g : grammar) (l : list sym) : list nat := map (fun x => match get_token_idx g x with Some k => k | None => 0 end) l.
Definition d_ : lexp := LOp 0 1 (Form false digits [] RNone) [].
Example C90_nonvacuous :
  exists ast g t, file_says file_top ast /\ listfix l_top ast /\ grammar_from_ast ast = Ok g /\ make_tables ehash g = Ok t /\
  linhabited l_top /\ (forall s, s < lg_sorts l_top -> lg_top l_top s <= 1) /\
  length (t_states t) = 16 /\ 1 + list_sum (map (fun p => length (p_syms p)) (g_prods g)) = 18 /\
  (exists r, parse_report g t (tok_no g [tk "max"; tk "("; digits; tk ","; tk ")"; SEof]) = Some r /\ rp_pos r = 4 /\ nth_error (g_tokens g) (rp_token r) = Some (tk ")")) /\
  (exists r, parse_report g t (tok_no g [tk "max"; tk "("; digits; tk ","; digits; SEof]) = Some r /\ rp_pos r = 5 /\ rp_token r = 0) /\
  (exists ps, parse_impl g t (tok_no g [tk "max"; tk "("; digits; tk ","; digits; tk ")"; SEof]) = Ok ps /\ length ps = 8).
Proof.
  assert (Ea : exists ast, parse_grammar file_top = Ok ast /\ ast_rules ast = top_rules /\ (exists st, find ap_start ast = Some st /\ ap_name st = tx "E")).
  { let v := eval vm_compute in (parse_grammar file_top) in match v with Ok ?a => exists a end. split; [vm_compute; reflexivity|]. split; [vm_compute; reflexivity|]. eexists. split; vm_compute; reflexivity. }
  destruct Ea as (ast & Ea & Er & Hst). assert (Hs : file_says file_top ast) by (apply (C51_reading file_top), Ea). pose proof (top_lang ast Er Hst) as HM. clear Er Hst.
  destruct (grammar_from_ast ast) as [g| |] eqn:Eg; [|vm_compute in Ea; injection Ea as <-; vm_compute in Eg; discriminate Eg..].
  vm_compute in Ea. injection Ea as <-.
  destruct (make_tables ehash g) as [t| |] eqn:Et; [|vm_compute in Eg; injection Eg as <-; vm_compute in Et; discriminate Et..].
  eexists. exists g, t. split; [exact Hs|]. split; [exact HM|]. split; [exact Eg|]. split; auto. clear Hs HM.
  split. { intros s i H1 H2. cbn in H1, H2. assert (s = 0) as -> by lia. exists d_. unfold d_. apply lp_op; [lia|apply top_list_all; vm_compute; tauto|vm_compute; constructor]. }
  split; [intros; cbn; lia|].
  vm_compute in Eg. injection Eg as <-. vm_compute in Et. injection Et as <-.
  split; [vm_compute; reflexivity|]. split; [vm_compute; reflexivity|]. split; [eexists; split; [vm_compute; reflexivity|split; vm_compute; reflexivity]|].
  split; [eexists; split; [vm_compute; reflexivity|split; reflexivity]|eexists; split; [vm_compute; reflexivity|reflexivity]].
Qed.
