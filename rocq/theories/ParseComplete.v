(** Completeness of the parser for closed tables. *)
From Verif Require Import Base Grammar GrammarSpec GrammarProofs First FirstProofs Item ItemSpec ItemProofs ItemPlain Table TableFacts Parse ParseSpec TreeFacts Auto ParseProofs ParseTerm ParseCycle.

Lemma map_app_split {A B} (f : A -> B) l m1 m2 : map f l = m1 ++ m2 -> exists l1 l2, l = l1 ++ l2 /\ map f l1 = m1 /\ map f l2 = m2.
Proof.
  revert l; induction m1 as [|b m1 IH]; intros l H; simpl in H.
  - exists [], l. auto.
  - destruct l as [|a l]; [discriminate|]. injection H as H1 H2. destruct (IH l H2) as (l1 & l2 & -> & E1 & E2).
    exists (a :: l1), l2. simpl. split; auto. split; congruence.
Qed.
Lemma ends_unique {S R} (step : S -> S + R) c n c1 r1 m c2 r2 :
  nsteps step n c c1 -> step c1 = inr r1 -> nsteps step m c c2 -> step c2 = inr r2 -> r1 = r2.
Proof.
  intros H1 E1 H2 E2. pose proof (Nat.pow_gt_lin_r 2 (n + m) ltac:(lia)) as Hlt.
  assert (X1 : run step (n + m) c = inr r1) by (eapply nsteps_run; [exact H1|exact E1|lia]).
  assert (X2 : run step (n + m) c = inr r2) by (eapply nsteps_run; [exact H2|exact E2|lia]). congruence.
Qed.

Section Complete.
  Variables (g : grammar) (start : str).
  Hypothesis W : wf_grammar g start.
  Hypothesis Hst : g_start g = aug_name start.
  Variables (hash : list item -> N) (t : tables).
  Hypothesis Ht : make_tables hash g = Ok t.
  Hypothesis He : eps_free g.
  Hypothesis Heof : eof_free g.
  Hypothesis Hf : start_fresh g.
  Hypothesis Hcl : closed g t.
  Let A : auto g t := tables_auto g start W Hst hash t Ht.
  Variable tokens : list nat.
  Let step := parse_step g t tokens.

  Lemma nth_tok k x : nth_error (g_tokens g) k = Some x -> tok g k x.
  Proof using W Heof. intros H. apply tok_idx. apply (token_idx_bij g start W x k Heof). exact H. Qed.
  Lemma nth_pre {B} (pre : list B) a v : nth_error (pre ++ a :: v) (length pre) = Some a.
  Proof. apply nth_error_app_mid. Qed.

  Definition simulates (tr : tree) : Prop := forall x q s p d k ak b pre u a' v a0 trc,
    tree_ok g tr -> root g tr = Some x -> st t q p d k -> sym_at g p d x ->
    nth_error (g_tokens g) k = Some ak -> F_std g (rest g p (S d) ++ [ak]) b -> tok g a' b ->
    tokens = pre ++ u ++ a' :: v -> symbols g u (yield tr) -> nth_error tokens (length pre) = Some a0 ->
    exists n q', nsteps step n (PState (q :: s) (length pre) a0 trc)
        (PState (q' :: q :: s) (length pre + length u) a' (trc ++ postorder tr)) /\ trans g t q x q'.

  Lemma sim_forest ts : Forall simulates ts -> forall d p pr q s a' b pre u v a0 trc,
    Forall (tree_ok g) ts -> nth_error (g_prods g) p = Some pr -> map (root g) ts = map Some (skipn d (p_syms pr)) ->
    d <= length (p_syms pr) -> st t q p d a' -> nth_error (g_tokens g) a' = Some b -> terminal b ->
    tokens = pre ++ u ++ a' :: v -> symbols g u (flat_map yield ts) -> nth_error tokens (length pre) = Some a0 ->
    exists n stk qn r, nsteps step n (PState (q :: s) (length pre) a0 trc)
        (PState (stk ++ q :: s) (length pre + length u) a' (trc ++ flat_map postorder ts)) /\
      length stk = length ts /\ stk ++ q :: s = qn :: r /\ st t qn p (length (p_syms pr)) a'.
  Proof.
    induction ts as [|tr ts IH]; intros HF d p pr q s a' b pre u v a0 trc Ho Hp Hm Hd Hk Hb Htb Etok Hy Ha0.
    - assert (Ed : d = length (p_syms pr)).
      { assert (E : length (skipn d (p_syms pr)) = 0) by (rewrite <- (map_length Some), <- Hm; reflexivity). rewrite skipn_length in E. lia. }
      unfold symbols in Hy. simpl in Hy. destruct u; [|discriminate]. simpl in Etok. rewrite Etok, nth_pre in Ha0. injection Ha0 as <-.
      exists 0, [], q, s. cbn [app length flat_map]. rewrite app_nil_r, Nat.add_0_r. split; [constructor|]. split; auto. split; auto. rewrite <- Ed. exact Hk.
    - inversion HF as [|? ? HF1 HF2]; subst x l. inversion Ho as [|? ? Ho1 Ho2]; subst x l.
      destruct (skipn d (p_syms pr)) as [|x l] eqn:El; [discriminate|]. simpl in Hm. injection Hm as Hm1 Hm2.
      assert (Hx : nth_error (p_syms pr) d = Some x).
      { destruct (rest_sym g p d x l) as (pr' & Hp' & Hx); [unfold rest; rewrite Hp; exact El|]. congruence. }
      assert (El' : skipn (S d) (p_syms pr) = l).
      { clear -El. revert d El. generalize (p_syms pr) as m. induction m as [|z m IHm]; intros [|d] El; simpl in *; try discriminate; [congruence|].
        apply IHm, El. }
      unfold symbols in Hy. cbn [flat_map] in Hy. rewrite map_app in Hy. apply map_app_split in Hy as (u1 & u2 & -> & Hy1 & Hy2).
      assert (E1 : exists a1 v1, u2 ++ a' :: v = a1 :: v1) by (destruct u2; simpl; eauto). destruct E1 as (a1 & v1 & E1).
      assert (Hb1 : exists b1 r1, nth_error (g_tokens g) a1 = Some b1 /\ flat_map yield ts ++ [b] = b1 :: r1).
      { destruct u2 as [|z u2]; simpl in E1; injection E1 as <- <-.
        - destruct (flat_map yield ts); [|discriminate]. exists b, []. auto.
        - destruct (flat_map yield ts) as [|y ys]; [discriminate|]. simpl in Hy2. injection Hy2 as H1 _. exists y, (ys ++ [b]). auto. }
      destruct Hb1 as (b1 & r1 & Hb1 & Er1).
      assert (HF1' : F_std g (rest g p (S d) ++ [b]) b1).
      { unfold rest. rewrite Hp, El'. split.
        - assert (Hall : terminals (flat_map yield ts ++ [b])).
          { apply Forall_app. split; [apply (forest_terminals g); assumption|]. constructor; auto. }
          rewrite Er1 in Hall. inversion Hall; auto.
        - exists r1. rewrite <- Er1. apply TreeFacts.derives_app; [apply forest_derives'; auto|constructor]. }
      destruct (HF1 x q s p d a' b b1 pre u1 a1 v1 a0 trc Ho1 Hm1 Hk (ex_intro _ pr (conj Hp Hx)) Hb HF1' (nth_tok _ _ Hb1))
        as (n1 & q1 & Hn1 & Htr1); auto.
      { rewrite <- E1. rewrite <- app_assoc in Etok. exact Etok. }
      destruct Htr1 as (_ & _ & _ & Hfw). pose proof (Hfw _ _ _ Hk (ex_intro _ pr (conj Hp Hx))) as Hk1.
      destruct (IH HF2 (S d) p pr q1 (q :: s) a' b (pre ++ u1) u2 v a1 (trc ++ postorder tr) Ho2 Hp) as (n2 & stk & qn & r & Hn2 & Hl & Est & Hkn); auto.
      { rewrite El'. exact Hm2. }
      { apply nth_error_lt in Hx. lia. }
      { rewrite <- app_assoc. rewrite <- app_assoc in Etok. exact Etok. }
      { rewrite Etok. rewrite <- app_assoc, E1, app_assoc. apply nth_pre. }
      exists (n1 + n2), (stk ++ [q1]), qn, r. split; [|split; [|split]].
      + eapply nsteps_trans; [exact Hn1|]. rewrite app_length in Hn2. rewrite app_length, Nat.add_assoc. cbn [flat_map].
        rewrite <- app_assoc. rewrite <- app_assoc in Hn2. exact Hn2.
      + rewrite app_length. simpl. lia.
      + rewrite <- app_assoc. exact Est.
      + exact Hkn.
  Qed.

  Lemma sim_tree tr : simulates tr.
  Proof.
    induction tr as [y|p' ts IH] using tree_ind'; intros x q s p d k ak b pre u a' v a0 trc Ho Hr Hk Hx Hak HF Hb Etok Hy Ha0.
    - simpl in Hr. injection Hr as <-. unfold symbols in Hy. simpl in Hy. destruct u as [|k0 [|? ?]]; try discriminate.
      injection Hy as Hy. apply nth_tok in Hy. rewrite Etok in Ha0. simpl in Ha0. rewrite nth_pre in Ha0. injection Ha0 as <-.
      destruct (Hcl q p d k y Hk Hx) as [H1 _]. destruct (H1 (tree_ok_leaf _ _ Ho) k0 Hy) as [j Hj].
      exists 1, j. split.
      + econstructor; [|constructor]. unfold step, parse_step. cbn [ps_stack ps_a ps_i ps_trace]. rewrite Hj. unfold next_token.
        rewrite Etok. replace (nth_error (pre ++ [k0] ++ a' :: v) (S (length pre))) with (Some a').
        * cbn [length postorder]. rewrite Nat.add_1_r, app_nil_r. reflexivity.
        * rewrite app_assoc. replace (S (length pre)) with (length (pre ++ [k0])) by (rewrite app_length; simpl; lia). rewrite nth_pre. reflexivity.
      + apply (a_shift _ _ A) in Hj as (x' & _ & Htk & _ & Htr). assert (x' = y) as -> by (destruct Hy, Htk; congruence). exact Htr.
    - apply tree_ok_node in Ho as (pr & Hp & Hts & Hm). simpl in Hr. rewrite Hp in Hr. injection Hr as <-.
      pose proof (st_closed g start W hash t Ht He q p d k ak p' pr b a' Hk Hx Hp Hak HF Hb) as Hk0.
      destruct (sim_forest ts IH 0 p' pr q s a' b pre u v a0 trc Hts Hp Hm (Nat.le_0_l _) Hk0 (proj1 Hb) (proj1 HF) Etok Hy Ha0)
        as (n & stk & qn & r & Hn & Hl & Est & Hkn).
      destruct (Hcl q p d k _ Hk Hx) as [_ H2]. destruct (H2 _ eq_refl) as [j Hj].
      exists (n + 1), j. split; [|apply (a_goto _ _ A), Hj].
      eapply nsteps_trans; [exact Hn|]. econstructor; [|constructor].
      unfold step, parse_step. cbn [ps_stack ps_a ps_i ps_trace]. rewrite Est.
      assert (Hc : complete g p' (length (p_syms pr))) by (exists pr; auto).
      rewrite (a_complete _ _ A _ _ _ _ Hkn Hc).
      assert (Hp0 : p' <> 0).
      { intros ->. rewrite (wg_prod0 _ _ W) in Hp. injection Hp as <-. destruct Hx as (prx & Hpx & Hx). cbn [p_name] in Hx.
        apply (Hf prx (nth_error_In _ _ Hpx)). rewrite Hst. eapply nth_error_In, Hx. }
      replace ((a' =? 0) && (p' =? 0)) with false
        by (destruct (Nat.eqb_spec p' 0); [congruence|rewrite andb_false_r; reflexivity]).
      unfold get_production. rewrite Hp, <- Est.
      assert (Hls : length stk = length (p_syms pr)) by (rewrite Hl, <- (map_length (root g)), Hm, map_length; reflexivity).
      replace (length (stk ++ q :: s) <? length (p_syms pr)) with false
        by (symmetry; apply Nat.ltb_ge; rewrite app_length; lia).
      rewrite <- Hls, skipn_app, skipn_all, Nat.sub_diag. cbn [app skipn]. rewrite Hj.
      cbn [postorder]. rewrite app_assoc. reflexivity.
  Qed.

  Lemma parse_complete w tr : ended tokens w -> parse_tree g start w tr -> parse_impl g t tokens = Ok (postorder tr).
  Proof.
    intros Hend (Ho & Hr & Hy). destruct (inv_init g t tokens w Hend) as (a & tl & Et & _).
    assert (Hsim : exists n q', nsteps step n (parse_init a) (PState [q'; 0] (length w) 0 (postorder tr)) /\ trans g t 0 (SNon start) q').
    { assert (Hs0 : sym_at g 0 0 (SNon start)) by (eexists; split; [apply (wg_prod0 _ _ W)|reflexivity]).
      apply (sim_tree tr (SNon start) 0 [] 0 0 0 SEof SEof [] w 0 [] a []); auto.
      - apply (a_init _ _ A).
      - apply (token_eof g start W).
      - unfold rest. rewrite (wg_prod0 _ _ W). simpl. split; [intros n; discriminate|]. exists []. constructor.
      - apply tok_idx. apply (token_idx_eof g start W).
      - apply Hend.
      - rewrite Et. reflexivity. }
    destruct Hsim as (n & q' & Hn & (_ & _ & _ & Hfw)).
    assert (Hk : st t q' 0 1 0).
    { apply Hfw; [apply (a_init _ _ A)|]. eexists; split; [apply (wg_prod0 _ _ W)|reflexivity]. }
    assert (Hc : complete g 0 1) by (eexists; split; [apply (wg_prod0 _ _ W)|reflexivity]).
    assert (E : step (PState [q'; 0] (length w) 0 (postorder tr)) = inr (Ok (postorder tr))).
    { unfold step, parse_step. cbn [ps_stack ps_a ps_i ps_trace]. rewrite (a_complete _ _ A _ _ _ _ Hk Hc). reflexivity. }
    destruct (parse_ends g start W t A He tokens w Hend Heof) as (a1 & Ea & [[_ Hcyc]|(m & c' & r & Hm & Er & Ei)]);
      rewrite Et in Ea; injection Ea as <-.
    - exfalso. eapply forever_no_end; [eapply cyclic_forever; exact Hcyc|exact Hn|exact E].
    - rewrite Ei. symmetry. exact (ends_unique _ _ _ _ _ _ _ _ Hn E Hm Er).
  Qed.

  Lemma parse_terminates w : ended tokens w -> parse_impl g t tokens <> Diverge.
  Proof.
    intros Hend HD. destruct (parse_ends g start W t A He tokens w Hend Heof) as (a & Ea & [[_ Hcyc]|(m & c' & r & Hm & Er & Ei)]).
    - destruct Hcyc as (n & s & i & a1 & tr & q0 & j & ps & ts & _ & _ & Hne & Hu).
      apply Hne. eapply (no_cycle g start W Hst hash t Ht He); eauto.
    - rewrite Ei in HD. subst r. unfold step in Er. clear -Er. unfold parse_step in Er.
      destruct (ps_stack c') as [|q s]; [discriminate|]. destruct (tbl_get _ _ _) as [[|p|]|]; try discriminate.
      + destruct (get_production g p) as [pr|]; [|discriminate]. destruct (_ <? _); [discriminate|].
        destruct (skipn _ _) as [|q' s']; [discriminate|]. destruct (tbl_get _ _ _); discriminate.
  Qed.

  (** Trees are unique. *)
  Lemma tree_unique w tr tr' : ended tokens w -> parse_tree g start w tr -> parse_tree g start w tr' -> tr = tr'.
  Proof.
    intros Hend H H'. pose proof (parse_complete w tr Hend H) as E. rewrite (parse_complete w tr' Hend H') in E. injection E as E.
    destruct H as (Ho & Hr & _), H' as (Ho' & Hr' & _). apply (post_inj g); auto. congruence.
  Qed.
End Complete.
