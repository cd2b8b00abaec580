(** Property C86: using a grammar of operators. *)
From Coq Require Import String.
From Verif Require Import Base Text Regex Nfa NfaProofs Dfa Lex LexSpec LexNfa LexProofs Grammar GrammarSpec GrammarProofs First Item ItemSpec ItemProofs ItemPlain
  GrammarCheck Table TableSpec MergeProofs TableProofs TableFacts LexGrammar LexGrammarProofs Parse ParseSpec ParseCheck TreeFacts Auto ParseProofs ParseTerm ParseCycle ParseComplete
  Report ReportSpec ReportProofs ReportExact Lalr EndSpec EndProofs Utf8Spec Utf8Proofs GrammarFile GrammarFileSpec Witness IsoSpec Iso IsoGrammar
  PropsLex PropsGrammar PropsTable PropsParse PropsMerge PropsReport PropsEnd PropsGrammarFile Lisp PropsOutcome PropsParseEnd PropsCost LayerProofs MixSpec MixProofs MixEvalSpec MixUseSpec MixUse
  PropsMix PropsMixType.
Local Open Scope list_scope.

Section Use.
  Variables (ast : list aprod) (g : grammar) (M : mix).
  Hypothesis Hg : grammar_from_ast ast = Ok g.
  Hypothesis Hf : file_ast ast.
  Hypothesis HM : mixfix M ast.
  Notation E := (mx_name M).

  Lemma u_zero : MixProofs.ok M 0 0.
  Proof using HM. split; [apply (mk_sort _ (m_ok _ _ HM))|lia]. Qed.
  Lemma u_sentence w : sentence g (E 0 0) w <-> exists e, mproper M 0 0 e /\ symbols g w (mwritten M e).
  Proof using Hg Hf HM.
    split.
    - intros (l & Hl & Htl & Hd). destruct (derives_forest g [SNon (E 0 0)] l Hd Htl) as (ts & Ho & Hm & Hy). destruct ts as [|tr [|tr' ts]]; try discriminate Hm.
      injection Hm as Hm. inversion Ho; subst. cbn [flat_map] in Hl. rewrite app_nil_r in Hl.
      destruct (tree_in g M (m_wf _ _ _ Hg HM) (m_fresh _ _ Hf HM) (m_R _ _ _ Hg HM) (m_ok _ _ HM) tr 0 0 u_zero) as (e & _ & G2 & G3); auto. exists e. rewrite <- G3. auto.
    - intros (e & He & Hw). destruct (tree_out g M (m_R' _ _ _ Hg HM) (m_ok _ _ HM) e 0 0 He) as (p & ts & Ho & Hr & _ & Hy).
      exists (mwritten M e). rewrite <- Hy in *. split; auto. split; [eapply tree_terminals; eauto|apply tree_derives; auto].
  Qed.
  (** What is written can be given by tokens. *)
  Lemma u_tokens l e s i l' : mproper M s i e -> mwritten M e = l ++ l' -> exists v, symbols g v l' /\ ~ In 0 v.
  Proof using Hg HM.
    intros He El. assert (G : forall x, In x (mwritten M e) -> exists k, nth_error (g_tokens g) (S k) = Some x).
    { destruct (tree_out g M (m_R' _ _ _ Hg HM) (m_ok _ _ HM) e s i He) as (p & ts & Ho & _ & _ & <-).
      clear El He e. remember (Node p ts) as tr eqn:Et. clear -Hg HM Ho Et.
      assert (GG : forall tr, tree_ok g tr -> (exists y, tr = Leaf y) \/ forall x, In x (yield tr) -> exists k, nth_error (g_tokens g) (S k) = Some x).
      { clear -Hg HM. induction tr as [y|p ts IH] using tree_ind'; intros Ho; [left; eauto|right]. inversion Ho as [|? pr ? Hp Hts Hm]; subst.
        intros x Hx. cbn [yield] in Hx. apply in_flat_map in Hx as (t & Ht & Hx). rewrite Forall_forall in IH, Hts.
        destruct (IH t Ht (Hts t Ht)) as [(y & ->)|H]; [|auto]. destruct Hx as [<-|[]].
        assert (In (Some y) (map Some (p_syms pr))) as Hy by (rewrite <- Hm; apply in_map_iff; exists (Leaf y); auto). apply in_map_iff in Hy as (y' & E0 & Hy). injection E0 as ->.
        destruct (wg_tokens _ _ (m_wf _ _ _ Hg HM)) as (tl & Etl & _ & Hin). rewrite Etl. cbn [nth_error]. apply In_nth_error, Hin. eauto using nth_error_In. }
      destruct (GG tr Ho) as [(y & ->)|H]; [discriminate|exact H]. }
    assert (G' : forall x, In x l' -> exists k, nth_error (g_tokens g) (S k) = Some x) by (intros x Hx; apply G; rewrite El; apply in_or_app; auto). clear -G'.
    induction l' as [|x l' IH]; [exists []; split; [reflexivity|intros []]|]. destruct IH as (v & Hv & Hz); [intros; apply G'; right; auto|].
    destruct (G' x (or_introl eq_refl)) as (k & Hk). exists (S k :: v). split; [unfold symbols in *; cbn [map]; rewrite Hk, Hv; reflexivity|]. intros [H|H]; [lia|auto].
  Qed.
  Lemma u_productive : minhabited M -> all_productive g.
  Proof using Hg HM.
    intros HI p x Hp Hx. destruct (In_nth_error _ _ Hp) as [k Hk].
    assert (D : terminal x \/ exists B, x = SNon B) by (destruct x; [left; discriminate|right; eauto|left; discriminate..]). destruct D as [D|[B ->]]; [exists [x]; split; [repeat constructor; auto|constructor]|].
    destruct (body_names g M (m_wf _ _ _ Hg HM) (m_R _ _ _ Hg HM) (m_ok _ _ HM) _ _ _ Hk Hx) as (s & i & [Hs Hi] & ->). destruct (HI s i Hs Hi) as [e He].
    destruct (tree_out g M (m_R' _ _ _ Hg HM) (m_ok _ _ HM) e s i He) as (q & ts & Ho & Hr & _ & Hy).
    exists (yield (Node q ts)). split; [eapply tree_terminals; eauto|apply tree_derives; auto].
  Qed.
End Use.

(** ** Theorems *)

(** A rejected text is reported at the first wrong token: what is before it begins an expression, and with it nothing does;
    if the report is at the end, the text begins an expression and is none. *)
Theorem C86_report :
  forall ast g M, grammar_from_ast ast = Ok g -> file_ast ast -> mixfix M ast -> minhabited M ->
  forall hash t, make_tables hash g = Ok t ->
  forall tokens w r, ended tokens w -> parse_report g t tokens = Some r ->
  rp_pos r <= length w /\ nth_error tokens (rp_pos r) = Some (rp_token r) /\
  (exists e l l', mproper M 0 0 e /\ mwritten M e = l ++ l' /\ symbols g (firstn (rp_pos r) w) l) /\
  (rp_token r <> 0 -> forall e l l', mproper M 0 0 e -> mwritten M e = l ++ l' -> ~ symbols g (firstn (rp_pos r) w ++ [rp_token r]) l) /\
  (rp_token r = 0 -> rp_pos r = length w /\ forall e, mproper M 0 0 e -> ~ symbols g w (mwritten M e)).
Proof.
  intros ast g M Hg Hf HM HI hash t Ht tokens w r Hend Hr. destruct (file_plain _ _ Hf Hg) as [Hp Hfr]. destruct (m_start _ _ _ Hg HM) as (st & Hs & En & _).
  destruct (C55_first_wrong_partial _ _ _ Hg Hs Hp Hfr hash t Ht tokens w r Hend Hr) as (A1 & A2 & A3 & A4). rewrite En in *.
  specialize (A3 (u_productive _ _ _ Hg HM HI)). specialize (A4 (m_closed _ _ _ Hg Hf HM hash t Ht)).
  split; auto. split; auto. split.
  - destruct A3 as (v & Hv). apply (u_sentence _ _ _ Hg Hf HM) in Hv as (e & He & Hw). unfold symbols in Hw. rewrite map_app in Hw.
    destruct (map_eq_app _ _ _ _ (eq_sym Hw)) as (l & l' & El & H1 & H2). exists e, l, l'. split; auto. split; auto. unfold symbols. congruence.
  - unfold can_follow in A4. destruct (Nat.eqb_spec (rp_token r) 0) as [E0|E0]; (split; [|intros E1; try contradiction]).
    + intros Hn. contradiction.
    + destruct Hend as [-> Hz]. assert (Hpos : rp_pos r = length w).
      { destruct (Nat.eq_dec (rp_pos r) (length w)) as [D|D]; [exact D|]. exfalso. rewrite nth_error_app1 in A2 by lia. apply nth_error_In in A2. rewrite E0 in A2. auto. }
      split; auto. intros e He Hw. apply A4. rewrite Hpos, firstn_all. apply (u_sentence _ _ _ Hg Hf HM). eauto.
    + intros _ e l l' He El Hw. apply A4. destruct (u_tokens _ _ _ Hg HM l e 0 0 l' He El) as (v & Hv & _). exists v. apply (u_sentence _ _ _ Hg Hf HM). exists e. split; auto.
      unfold symbols in *. rewrite El, !map_app. f_equal; auto. rewrite <- map_app. exact Hw.
Qed.
Print Assumptions C86_report.

(** Parsing an expression takes a number of steps linear in the tokens, whatever the number of rules: at most one more than the highest level
    for each token, and one for the token. *)
Lemma steps_count g t tokens k a c : nsteps (parse_step g t tokens) k (parse_init a) c -> ps_i c + length (ps_trace c) = k.
Proof.
  assert (G : forall c0, nsteps (parse_step g t tokens) k c0 c -> ps_i c + length (ps_trace c) = ps_i c0 + length (ps_trace c0) + k); [|intros H; rewrite (G _ H); reflexivity].
  intros c0 H. induction H as [s|n s s' s'' Hs _ IH]; [lia|]. rewrite IH. clear IH. unfold parse_step in Hs.
  destruct (ps_stack s) as [|q st]; [discriminate|]. destruct (tbl_get (t_action t) q (ps_a s)) as [[j|p|]|]; try discriminate.
  - unfold next_token in Hs. injection Hs as <-. cbn [ps_i ps_trace]. lia.
  - destruct (get_production g p) as [pr|]; [|discriminate]. destruct (_ <? _); [discriminate|]. destruct (skipn _ _) as [|q' st']; [discriminate|].
    destruct (tbl_get _ _ _); [|discriminate]. injection Hs as <-. cbn [ps_i ps_trace]. rewrite app_length. cbn [length]. lia.
Qed.
Theorem C86_linear :
  forall ast g M, grammar_from_ast ast = Ok g -> file_ast ast -> mixfix M ast ->
  forall hash t, make_tables hash g = Ok t ->
  forall tokens w ps K, ended tokens w -> parse_impl g t tokens = Ok ps -> (forall s, s < mx_sorts M -> mx_top M s <= K) ->
  length ps <= (K + 1) * length w /\
  exists a k c, nth_error tokens 0 = Some a /\ nsteps (parse_step g t tokens) k (parse_init a) c /\ parse_step g t tokens c = inr (Ok ps) /\ k <= (K + 2) * length w.
Proof.
  intros ast g M Hg Hf HM hash t Ht tokens w ps K Hend H HK. destruct (file_plain _ _ Hf Hg) as [Hp Hfr].
  destruct (C85_reductions _ _ _ Hg Hf HM hash t Ht tokens w ps Hend H) as (e & He & Hw & El).
  assert (L : length ps <= (K + 1) * length w).
  { rewrite El. pose proof (rules_size M K e HK 0 0 He) as H1. pose proof (written_size M e 0 0 He) as H2.
    assert (length w = length (mwritten M e)) as -> by (unfold symbols in Hw; apply (f_equal (@length _)) in Hw; rewrite !map_length in Hw; exact Hw). nia. }
  split; auto.
  destruct (C63_parse_linear_partial _ _ Hg Hp hash t Ht tokens w Hend) as (a & Ea & _ & Hdep).
  destruct (C31_terminates_partial _ _ Hg Hp Hfr hash t Ht (m_closed _ _ _ Hg Hf HM hash t Ht) tokens w Hend) as (a' & n & c & Ea' & Hn & Hc).
  rewrite Ea in Ea'. injection Ea' as <-. exists a, n, c. rewrite H in Hc. split; auto. split; auto. split; auto.
  pose proof (steps_count _ _ _ _ _ _ Hn) as Hk. destruct (Hdep n c Hn) as [_ Hi].
  assert (ps_trace c = ps) as Htr; [|rewrite Htr in Hk; nia].
  unfold parse_step in Hc. destruct (ps_stack c) as [|q st]; [discriminate|]. destruct (tbl_get (t_action t) q (ps_a c)) as [[j|p|]|]; try congruence.
  - destruct (next_token tokens (ps_i c) (ps_a c)); discriminate.
  - destruct (get_production g p) as [pr|]; [|discriminate]. destruct (_ <? _); [discriminate|]. destruct (skipn _ _) as [|q' st']; [discriminate|]. destruct (tbl_get _ _ _); discriminate.
Qed.
Print Assumptions C86_linear.

(** The tables have at most one state for each position after a symbol of a rule, and the first one. *)
Theorem C86_states :
  forall ast g M, grammar_from_ast ast = Ok g -> file_ast ast -> mixfix M ast ->
  forall hash t, make_tables hash g = Ok t ->
  length (t_states t) <= 1 + list_sum (map (fun p => length (p_syms p)) (g_prods g)).
Proof.
  intros ast g M Hg Hf HM hash t Ht. pose proof (m_plain _ _ Hg Hf) as [He _].
  pose proof (m_wf _ _ _ Hg HM) as W. pose proof (m_R _ _ _ Hg HM) as R. pose proof (m_R' _ _ _ Hg HM) as R'.
  pose proof (m_U _ _ _ Hg HM) as U. pose proof (m_fresh _ _ Hf HM) as Fr. pose proof (m_ok _ _ HM) as Okm.
  destruct (C26_states_are_lalr _ _ Hg He _ _ Ht) as (H1 & _ & H3 & _). cbn [Nat.add]. rewrite <- positions_length.
  set (shows := fun i z => exists s, nth_error (t_states t) i = Some s /\ forall p d, (exists k, has s p d k) <-> core g M z p d).
  apply (rel_count (fun i x => exists z, valid g M z /\ shows i z /\ rep g M z x)).
  - intros i Hi. destruct (nth_error (t_states t) i) as [s|] eqn:Es; [|apply nth_error_None in Es; lia].
    destruct (H1 i s Es) as (I & HI & Hq). destruct (states_shaped g M W Fr R R' U Okm I HI) as (z & c & V & Hc & EI).
    destruct (rep_some g M W R' Okm z V) as (x & Hx & Hrep). exists x. split; auto. exists z. split; auto. split; auto. exists s. split; auto.
    intros p d. rewrite <- (core_ok g M W R' Okm z c p d V Hc). split; intros [k Hk].
    + apply Hq, (lalr_shape g M W Fr R R' U Okm I z c HI EI V Hc) in Hk as (c' & Hc' & Hk). apply (core_ok g M W R' Okm z c p d V Hc), (sset_core g M W R' Okm z c' p d k V Hc' Hk).
    + exists k. apply Hq. apply (lalr_shape g M W Fr R R' U Okm I z c HI EI V Hc). eauto.
  - intros i j x _ _ (z & V & (s & Hs & C) & Hrep) (z' & V' & (s' & Hs' & C') & Hrep').
    assert (z = z') as <- by (eapply rep_inj; eauto). eapply H3; eauto. intros p d. rewrite C, C'. tauto.
Qed.
Print Assumptions C86_states.

(** If every sort has brackets, every expression, whatever the levels of its operands, can be written by adding brackets, where they are needed
    only: the parser reads it back. *)
Theorem C86_brackets :
  forall ast g M, grammar_from_ast ast = Ok g -> file_ast ast -> mixfix M ast ->
  forall hash t, make_tables hash g = Ok t ->
  forall br, (forall s, s < mx_sorts M -> brackets M s (br s)) ->
  forall e, well_sorted M 0 e ->
  exists e' w tr, adds br M e e' /\ (mproper M 0 0 e -> e' = e) /\ ~ In 0 w /\ symbols g w (mwritten M e') /\ mmeans g M tr e' /\
    (forall tr', parse_tree g (mx_name M 0 0) w tr' <-> tr' = tr) /\
    forall tokens, ended tokens w -> parse_impl g t tokens = Ok (postorder tr).
Proof.
  intros ast g M Hg Hf HM hash t Ht br Hbr e He. pose proof (m_ok _ _ HM) as Okm.
  destruct (bracketed M br Okm Hbr e 0 0 He ltac:(lia)) as (e' & A1 & A2 & A3).
  destruct (u_tokens _ _ _ Hg HM [] e' 0 0 _ A2 eq_refl) as (w & Hw & Hz).
  destruct (tree_out g M (m_R' _ _ _ Hg HM) Okm e' 0 0 A2) as (p & ts & Ho & Hr & Hm & Hy).
  assert (HT : parse_tree g (mx_name M 0 0) w (Node p ts)) by (split; [auto|split; [auto|rewrite Hy; auto]]).
  destruct (file_plain _ _ Hf Hg) as [Hp Hfr]. destruct (m_start _ _ _ Hg HM) as (st & Hs & En & _). pose proof (m_closed _ _ _ Hg Hf HM hash t Ht) as Hcl.
  assert (TU : forall tr', parse_tree g (mx_name M 0 0) w tr' <-> tr' = Node p ts).
  { rewrite <- En in *. intros tr'. split; [intros H; exact (C33_unambiguous_partial _ _ _ Hg Hs Hp Hfr hash t Ht Hcl w tr' _ H HT)|intros ->; exact HT]. }
  exists e', w, (Node p ts). split; auto. split; auto. split; auto. split; auto. split; auto. split; auto.
  intros tokens Hend. destruct (C84_parse _ _ _ Hg Hf HM hash t Ht tokens w Hend) as (A & _). apply A. exists e', (Node p ts). auto.
Qed.
Print Assumptions C86_brackets.

(** The calculator of C85: (d+d)*(d-(d-d)) needs brackets, d+*d is wrong at the third token, d*( at its end. *)
Definition n_ : mexp := MOp 0 2 (Form false digits [] false) [].
Definition plus_ (a b : mexp) := MOp 0 0 (Form true (tk "+") [] true) [a; b].
Definition minus_ (a b : mexp) := MOp 0 0 (Form true (tk "-") [] true) [a; b].
Definition times_ (a b : mexp) := MOp 0 1 (Form true (tk "*") [] true) [a; b].
Definition par_ : form := Form false (tk "(") [PArg 0 (tk ")")] false.
Definition tok_no (g : grammar) (l : list sym) : list nat := map (fun x => match get_token_idx g x with Some k => k | None => 0 end) l.
Local Ltac sort_ok := repeat (apply ms_op; [apply num_list_all; vm_compute; tauto|vm_compute; repeat apply Forall2_cons; try apply Forall2_nil]).
Local Ltac prop_ok := repeat (apply mp_op; [vm_compute; lia|apply num_list_all; vm_compute; tauto|vm_compute; repeat apply Forall2_cons; try apply Forall2_nil]).
Example C86_nonvacuous :
  exists ast g t, file_says file_num ast /\ mixfix m_num ast /\ grammar_from_ast ast = Ok g /\ make_tables ehash g = Ok t /\
  minhabited m_num /\ (forall s, s < mx_sorts m_num -> mx_top m_num s <= 2) /\ (forall s, s < mx_sorts m_num -> brackets m_num s par_) /\
  (let e := times_ (plus_ n_ n_) (minus_ n_ (minus_ n_ n_)) in well_sorted m_num 0 e /\ ~ mproper m_num 0 0 e) /\
  length (t_states t) = 14 /\ 1 + list_sum (map (fun p => length (p_syms p)) (g_prods g)) = 17 /\
  (exists r, parse_report g t (tok_no g [digits; tk "+"; tk "*"; digits; SEof]) = Some r /\ rp_pos r = 2 /\ nth_error (g_tokens g) (rp_token r) = Some (tk "*")) /\
  (exists r, parse_report g t (tok_no g [digits; tk "*"; tk "("; SEof]) = Some r /\ rp_pos r = 3 /\ rp_token r = 0) /\
  (exists ps, parse_impl g t (tok_no g [digits; tk "*"; digits; SEof]) = Ok ps /\ length ps = 5).
Proof.
  assert (Ea : exists ast, parse_grammar file_num = Ok ast /\ ast_rules ast = num_rules /\ (exists st, find ap_start ast = Some st /\ ap_name st = tx "E")).
  { let v := eval vm_compute in (parse_grammar file_num) in match v with Ok ?a => exists a end. split; [vm_compute; reflexivity|]. split; [vm_compute; reflexivity|]. eexists. split; vm_compute; reflexivity. }
  destruct Ea as (ast & Ea & Er & Hst). assert (Hs : file_says file_num ast) by (apply (C51_reading file_num), Ea). pose proof (num_mix ast Er Hst) as HM. clear Er Hst.
  destruct (grammar_from_ast ast) as [g| |] eqn:Eg; [|vm_compute in Ea; injection Ea as <-; vm_compute in Eg; discriminate Eg..].
  vm_compute in Ea. injection Ea as <-.
  destruct (make_tables ehash g) as [t| |] eqn:Et; [|vm_compute in Eg; injection Eg as <-; vm_compute in Et; discriminate Et..].
  eexists. exists g, t. split; [exact Hs|]. split; [exact HM|]. split; [exact Eg|]. split; auto. clear Hs HM.
  split. { intros s i H1 H2. cbn in H1, H2. assert (s = 0) as -> by lia. exists n_. unfold n_. apply mp_op; [lia|apply num_list_all; vm_compute; tauto|vm_compute; constructor]. }
  split; [intros; cbn; lia|].
  split. { intros s H1. cbn in H1. assert (s = 0) as -> by lia. split; [apply num_list_all; vm_compute; tauto|]. split; [reflexivity|]. split; [reflexivity|]. eexists. reflexivity. }
  split.
  { split; [unfold times_, plus_, minus_, n_; sort_ok|]. intros H. inversion H as [? ? ? ? ? _ _ HF]; subst. vm_compute in HF. inversion HF as [|? ? ? ? HA _]; subst.
    inversion HA as [? ? ? ? ? Hj _ _]; subst. cbn in Hj. lia. }
  vm_compute in Eg. injection Eg as <-. vm_compute in Et. injection Et as <-.
  split; [vm_compute; reflexivity|]. split; [vm_compute; reflexivity|]. split; [eexists; split; [vm_compute; reflexivity|split; vm_compute; reflexivity]|].
  split; [eexists; split; [vm_compute; reflexivity|split; reflexivity]|eexists; split; [vm_compute; reflexivity|reflexivity]].
Qed.
