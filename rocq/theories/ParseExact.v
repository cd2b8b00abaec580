(** Exactly which sequences are accepted, whatever transitions are missing in the tables: those with
    a parse tree along which all transitions are there. *)
From Verif Require Import Base Grammar GrammarSpec GrammarProofs First FirstProofs Item ItemSpec ItemProofs ItemPlain Table TableFacts Parse ParseSpec TreeFacts Auto ParseProofs ParseTerm ParseCycle ParseComplete.

Section Exact.
  Variables (g : grammar) (start : str).
  Hypothesis W : wf_grammar g start.
  Hypothesis Hst : g_start g = aug_name start.
  Variables (hash : list item -> N) (t : tables).
  Hypothesis Ht : make_tables hash g = Ok t.
  Hypothesis He : eps_free g.
  Hypothesis Heof : eof_free g.
  Hypothesis Hf : start_fresh g.
  Let A : auto g t := tables_auto g start W Hst hash t Ht.
  Variable tokens : list nat.
  Let step := parse_step g t tokens.

  Lemma moves_all_app i ts ts' k : moves_all g t i (ts ++ ts') k <-> exists j, moves_all g t i ts j /\ moves_all g t j ts' k.
  Proof.
    revert i. induction ts as [|tr ts IH]; intros i; cbn [app]; split.
    - intros H. exists i. split; [constructor|auto].
    - intros (j & H & H'). inversion H; subst. exact H'.
    - intros H. inversion H as [|? ? j ? ? H1 H2]; subst. apply IH in H2 as (l & H2 & H3). exists l. split; [econstructor; eauto|auto].
    - intros (j & H & H'). inversion H as [|? ? l ? ? H1 H2]; subst. econstructor; eauto. apply IH. eauto.
  Qed.

  Lemma moves_leaf i x j : moves g t i (Leaf x) j -> exists k, tok g k x /\ tbl_get (t_action t) i k = Some (Shift j).
  Proof. intros H. inversion H; subst. eauto. Qed.
  Lemma moves_node i p ts j : moves g t i (Node p ts) j -> exists pr l, nth_error (g_prods g) p = Some pr /\ moves_all g t i ts l /\
    tbl_get (t_goto t) i (p_name pr) = Some j.
  Proof. intros H. inversion H; subst. eauto. Qed.
  Lemma moves_cons i tr ts k : moves_all g t i (tr :: ts) k -> exists j, moves g t i tr j /\ moves_all g t j ts k.
  Proof. intros H. inversion H; subst. eauto. Qed.

  Lemma moves_trans i tr j x : moves g t i tr j -> tree_ok g tr -> root g tr = Some x -> trans g t i x j.
  Proof using A.
    intros H Ho Hr. inversion H as [? y k ? Hk Hj|? p pr ts l ? Hp Hl Hj]; subst; simpl in Hr.
    - injection Hr as <-. apply (a_shift _ _ A) in Hj as (x' & _ & Htk & _ & Htr). assert (x' = y) as -> by (destruct Hk, Htk; congruence). exact Htr.
    - rewrite Hp in Hr. injection Hr as <-. apply (a_goto _ _ A), Hj.
  Qed.

  Lemma moves_det tr : forall i j j', moves g t i tr j -> moves g t i tr j' -> j = j'.
  Proof using W.
    induction tr as [y|p ts IH] using tree_ind'; intros i j j' H H'.
    - apply moves_leaf in H as (k & Hk & H), H' as (k' & Hk' & H'). apply tok_idx in Hk, Hk'. congruence.
    - apply moves_node in H as (pr & l & Hp & _ & H), H' as (pr' & l' & Hp' & _ & H'). congruence.
  Qed.

  (** ** Forwards *)
  Definition follows_tree (tr : tree) : Prop := forall x q q' s p d k ak b pre u a' v a0 trc,
    tree_ok g tr -> root g tr = Some x -> moves g t q tr q' -> st t q p d k -> sym_at g p d x ->
    nth_error (g_tokens g) k = Some ak -> F_std g (rest g p (S d) ++ [ak]) b -> tok g a' b ->
    tokens = pre ++ u ++ a' :: v -> symbols g u (yield tr) -> nth_error tokens (length pre) = Some a0 ->
    exists n, nsteps step n (PState (q :: s) (length pre) a0 trc)
        (PState (q' :: q :: s) (length pre + length u) a' (trc ++ postorder tr)).

  Lemma follow_forest ts : Forall follows_tree ts -> forall d p pr q ql s a' b pre u v a0 trc,
    Forall (tree_ok g) ts -> nth_error (g_prods g) p = Some pr -> map (root g) ts = map Some (skipn d (p_syms pr)) ->
    moves_all g t q ts ql ->
    d <= length (p_syms pr) -> st t q p d a' -> nth_error (g_tokens g) a' = Some b -> terminal b ->
    tokens = pre ++ u ++ a' :: v -> symbols g u (flat_map yield ts) -> nth_error tokens (length pre) = Some a0 ->
    exists n stk r, nsteps step n (PState (q :: s) (length pre) a0 trc)
        (PState (stk ++ q :: s) (length pre + length u) a' (trc ++ flat_map postorder ts)) /\
      length stk = length ts /\ stk ++ q :: s = ql :: r /\ st t ql p (length (p_syms pr)) a'.
  Proof using W Hst Ht Heof.
    induction ts as [|tr ts IH]; intros HF d p pr q ql s a' b pre u v a0 trc Ho Hp Hm Hmv Hd Hk Hb Htb Etok Hy Ha0.
    - assert (Ed : d = length (p_syms pr)).
      { assert (E : length (skipn d (p_syms pr)) = 0) by (rewrite <- (map_length Some), <- Hm; reflexivity). rewrite skipn_length in E. lia. }
      inversion Hmv; subst ql.
      unfold symbols in Hy. simpl in Hy. destruct u; [|discriminate]. simpl in Etok. rewrite Etok, nth_pre in Ha0. injection Ha0 as <-.
      exists 0, [], s. cbn [app length flat_map]. rewrite app_nil_r, Nat.add_0_r. split; [constructor|]. split; auto. split; auto. rewrite <- Ed. exact Hk.
    - inversion HF as [|? ? HF1 HF2]; subst x l. inversion Ho as [|? ? Ho1 Ho2]; subst x l.
      apply moves_cons in Hmv as (q1 & Hm1' & Hm2').
      destruct (skipn d (p_syms pr)) as [|x l] eqn:El; [discriminate|]. simpl in Hm. injection Hm as Hm1 Hm2.
      assert (Hx : nth_error (p_syms pr) d = Some x).
      { destruct (rest_sym g p d x l) as (pr' & Hp' & Hx); [unfold rest; rewrite Hp; exact El|]. congruence. }
      assert (El' : skipn (S d) (p_syms pr) = l).
      { clear -El. revert d El. generalize (p_syms pr) as m. induction m as [|z m IHm]; intros [|d] El; simpl in *; try discriminate; [congruence|].
        apply IHm, El. }
      unfold symbols in Hy. cbn [flat_map] in Hy. rewrite map_app in Hy. apply map_app_split in Hy as (u1 & u2 & -> & Hy1 & Hy2).
      assert (E1 : exists a1 v1, u2 ++ a' :: v = a1 :: v1) by (destruct u2; simpl; eauto). destruct E1 as (a1 & v1 & E1).
      assert (Hb1 : exists b1 r1, nth_error (g_tokens g) a1 = Some b1 /\ flat_map yield ts ++ [b] = b1 :: r1).
      { destruct u2 as [|z u2]; simpl in E1; injection E1 as <- <-.
        - destruct (flat_map yield ts); [|discriminate]. exists b, []. auto.
        - destruct (flat_map yield ts) as [|y ys]; [discriminate|]. simpl in Hy2. injection Hy2 as H1 _. exists y, (ys ++ [b]). auto. }
      destruct Hb1 as (b1 & r1 & Hb1 & Er1).
      assert (HF1' : F_std g (rest g p (S d) ++ [b]) b1).
      { unfold rest. rewrite Hp, El'. split.
        - assert (Hall : terminals (flat_map yield ts ++ [b])).
          { apply Forall_app. split; [apply (forest_terminals g); assumption|]. constructor; auto. }
          rewrite Er1 in Hall. inversion Hall; auto.
        - exists r1. rewrite <- Er1. apply TreeFacts.derives_app; [apply forest_derives'; auto|constructor]. }
      destruct (HF1 x q q1 s p d a' b b1 pre u1 a1 v1 a0 trc Ho1 Hm1 Hm1' Hk (ex_intro _ pr (conj Hp Hx)) Hb HF1' (nth_tok _ _ W Heof _ _ Hb1))
        as (n1 & Hn1); auto.
      { rewrite <- E1. rewrite <- app_assoc in Etok. exact Etok. }
      destruct (moves_trans _ _ _ _ Hm1' Ho1 Hm1) as (_ & _ & _ & Hfw). pose proof (Hfw _ _ _ Hk (ex_intro _ pr (conj Hp Hx))) as Hk1.
      destruct (IH HF2 (S d) p pr q1 ql (q :: s) a' b (pre ++ u1) u2 v a1 (trc ++ postorder tr) Ho2 Hp) as (n2 & stk & r & Hn2 & Hl & Est & Hkn); auto.
      { rewrite El'. exact Hm2. }
      { apply nth_error_lt in Hx. lia. }
      { rewrite <- app_assoc. rewrite <- app_assoc in Etok. exact Etok. }
      { rewrite Etok. rewrite <- app_assoc, E1, app_assoc. apply nth_pre. }
      exists (n1 + n2), (stk ++ [q1]), r. split; [|split; [|split]].
      + eapply nsteps_trans; [exact Hn1|]. rewrite app_length in Hn2. rewrite app_length, Nat.add_assoc. cbn [flat_map].
        rewrite <- app_assoc. rewrite <- app_assoc in Hn2. exact Hn2.
      + rewrite app_length. simpl. lia.
      + rewrite <- app_assoc. exact Est.
      + exact Hkn.
  Qed.

  Lemma follow_tree tr : follows_tree tr.
  Proof using W Hst Ht He Heof Hf.
    induction tr as [y|p' ts IH] using tree_ind'; intros x q q' s p d k ak b pre u a' v a0 trc Ho Hr Hmv Hk Hx Hak HF Hb Etok Hy Ha0.
    - apply moves_leaf in Hmv as (k1 & Hk1 & Hj). simpl in Hr. injection Hr as <-. unfold symbols in Hy. simpl in Hy. destruct u as [|k0 [|? ?]]; try discriminate.
      injection Hy as Hy. apply (nth_tok _ _ W Heof) in Hy. rewrite Etok in Ha0. simpl in Ha0. rewrite nth_pre in Ha0. injection Ha0 as <-.
      assert (k1 = k0) as -> by (apply tok_idx in Hy, Hk1; congruence).
      exists 1. econstructor; [|constructor]. unfold step, parse_step. cbn [ps_stack ps_a ps_i ps_trace]. rewrite Hj. unfold next_token.
      rewrite Etok. replace (nth_error (pre ++ [k0] ++ a' :: v) (S (length pre))) with (Some a').
      + cbn [length postorder]. rewrite Nat.add_1_r, app_nil_r. reflexivity.
      + rewrite app_assoc. replace (S (length pre)) with (length (pre ++ [k0])) by (rewrite app_length; simpl; lia). rewrite nth_pre. reflexivity.
    - apply moves_node in Hmv as (pr' & ql & Hp' & Hml & Hj).
      apply tree_ok_node in Ho as (pr & Hp & Hts & Hm). simpl in Hr. rewrite Hp in Hr. injection Hr as <-. rewrite Hp in Hp'. injection Hp' as <-.
      pose proof (st_closed g start W hash t Ht He q p d k ak p' pr b a' Hk Hx Hp Hak HF Hb) as Hk0.
      destruct (follow_forest ts IH 0 p' pr q ql s a' b pre u v a0 trc Hts Hp Hm Hml (Nat.le_0_l _) Hk0 (proj1 Hb) (proj1 HF) Etok Hy Ha0)
        as (n & stk & r & Hn & Hl & Est & Hkn).
      exists (n + 1). eapply nsteps_trans; [exact Hn|]. econstructor; [|constructor].
      unfold step, parse_step. cbn [ps_stack ps_a ps_i ps_trace]. rewrite Est.
      assert (Hc : complete g p' (length (p_syms pr))) by (exists pr; auto).
      rewrite (a_complete _ _ A _ _ _ _ Hkn Hc).
      assert (Hp0 : p' <> 0).
      { intros ->. rewrite (wg_prod0 _ _ W) in Hp. injection Hp as <-. destruct Hx as (prx & Hpx & Hx). cbn [p_name] in Hx.
        apply (Hf prx (nth_error_In _ _ Hpx)). rewrite Hst. eapply nth_error_In, Hx. }
      replace ((a' =? 0) && (p' =? 0)) with false
        by (destruct (Nat.eqb_spec p' 0); [congruence|rewrite andb_false_r; reflexivity]).
      unfold get_production. rewrite Hp, <- Est.
      assert (Hls : length stk = length (p_syms pr)) by (rewrite Hl, <- (map_length (root g)), Hm, map_length; reflexivity).
      replace (length (stk ++ q :: s) <? length (p_syms pr)) with false
        by (symmetry; apply Nat.ltb_ge; rewrite app_length; lia).
      rewrite <- Hls, skipn_app, skipn_all, Nat.sub_diag. cbn [app skipn]. rewrite Hj.
      cbn [postorder]. rewrite app_assoc. reflexivity.
  Qed.

  Lemma moves_parse w tr j : ended tokens w -> parse_tree g start w tr -> moves g t 0 tr j -> parse_impl g t tokens = Ok (postorder tr).
  Proof using W Hst Ht He Heof Hf.
    intros Hend (Ho & Hr & Hy) Hmv. destruct (inv_init g t tokens w Hend) as (a & tl & Et & _).
    assert (Hs0 : sym_at g 0 0 (SNon start)) by (eexists; split; [apply (wg_prod0 _ _ W)|reflexivity]).
    assert (Hsim : exists n, nsteps step n (parse_init a) (PState [j; 0] (length w) 0 (postorder tr))).
    { apply (follow_tree tr (SNon start) 0 j [] 0 0 0 SEof SEof [] w 0 [] a []); auto.
      - apply (a_init _ _ A).
      - apply (token_eof g start W).
      - unfold rest. rewrite (wg_prod0 _ _ W). simpl. split; [intros n; discriminate|]. exists []. constructor.
      - apply tok_idx. apply (token_idx_eof g start W).
      - apply Hend.
      - rewrite Et. reflexivity. }
    destruct Hsim as (n & Hn). destruct (moves_trans _ _ _ _ Hmv Ho Hr) as (_ & _ & _ & Hfw).
    assert (Hk : st t j 0 1 0) by (apply Hfw; [apply (a_init _ _ A)|exact Hs0]).
    assert (Hc : complete g 0 1) by (eexists; split; [apply (wg_prod0 _ _ W)|reflexivity]).
    assert (E : step (PState [j; 0] (length w) 0 (postorder tr)) = inr (Ok (postorder tr))).
    { unfold step, parse_step. cbn [ps_stack ps_a ps_i ps_trace]. rewrite (a_complete _ _ A _ _ _ _ Hk Hc). reflexivity. }
    destruct (parse_ends g start W t A He tokens w Hend Heof) as (a1 & Ea & [[_ Hcyc]|(m & c' & r & Hm & Er & Ei)]);
      rewrite Et in Ea; injection Ea as <-.
    - exfalso. eapply forever_no_end; [eapply cyclic_forever; exact Hcyc|exact Hn|exact E].
    - rewrite Ei. symmetry. exact (ends_unique _ _ _ _ _ _ _ _ Hn E Hm Er).
  Qed.

  (** ** Backwards *)
  Inductive moved : list nat -> list tree -> Prop :=
  | md_base : moved [0] []
  | md_push q q' s ts tr : moved (q :: s) ts -> moves g t q tr q' -> moved (q' :: q :: s) (tr :: ts).

  Lemma moved_pop n : forall q s ts q' s', moved (q :: s) ts -> n <= length ts -> skipn n (q :: s) = q' :: s' ->
    moved (q' :: s') (skipn n ts) /\ moves_all g t q' (rev (firstn n ts)) q.
  Proof.
    induction n as [|n IH]; intros q s ts q' s' H Hn E.
    - simpl in E. injection E as <- <-. split; [exact H|constructor].
    - inversion H as [|q0 ? s0 ts0 tr H1 H2]; subst; [simpl in Hn; lia|]. simpl in E, Hn.
      destruct (IH _ _ _ _ _ H1 ltac:(lia) E) as [H3 H4]. split; [exact H3|]. cbn [firstn rev]. apply moves_all_app. exists q0. split; auto.
      econstructor; [exact H2|constructor].
  Qed.

  Section Ended.
    Variable w : list nat.
    Hypothesis Hend : ended tokens w.
    Definition minv (c : pstate) (ts : list tree) : Prop := inv g t tokens w c ts /\ moved (ps_stack c) ts.
    Lemma minv_step c c' ts : minv c ts -> parse_step g t tokens c = inl c' -> exists ts', minv c' ts'.
    Proof using W Hst Ht Heof Hend.
      intros [HI HM] E. pose proof (step_outcome g t A tokens c ts (proj1 HI)) as O. rewrite E in O. pose proof E as E0.
      inversion O as [q s x j Es Hx Hk Hex Htr Ec|p pr q' s' j q s k' Es Hp Hs0 Hne Hl Esk Hsk Hm Hk' Hg Htr Ec|?|?|?]; subst c'.
      - exists (Leaf x :: ts). split; [eapply inv_shift; eauto|]. cbn [ps_stack]. rewrite Es in HM. constructor; auto.
        unfold parse_step in E. rewrite Es in E. destruct (tbl_get (t_action t) q (ps_a c)) as [[j'|p|]|] eqn:Ea; try discriminate.
        + unfold next_token in E. cbv beta iota zeta in E. apply (f_equal (fun x => match x with inl c => hd 0 (ps_stack c) | inr _ => 0 end)) in E. cbn in E. subst j'. econstructor; eauto.
        + exfalso. clear -E. destruct (get_production g p) as [pr|]; [|discriminate]. destruct (_ <? _); [discriminate|].
          destruct (skipn _ _); [discriminate|]. destruct (tbl_get _ _ _); [|discriminate]. injection E. intros. lia.
      - exists (Node p (rev (firstn (length (p_syms pr)) ts)) :: skipn (length (p_syms pr)) ts). split; [eapply inv_reduce; eauto|].
        cbn [ps_stack]. rewrite Es in HM. destruct (moved_pop _ _ _ _ _ _ HM Hl Esk) as [H1 H2]. constructor; auto. econstructor; eauto.
    Qed.

    Lemma parse_moves ps : parse_impl g t tokens = Ok ps -> exists tr j, parse_tree g start w tr /\ ps = postorder tr /\ moves g t 0 tr j.
    Proof using W Hst Ht Heof Hend Hf.
      destruct (inv_init g t tokens w Hend) as (a & tl & Et & H0). unfold parse_impl. rewrite Et. rewrite <- Et.
      pose proof (run_inv (parse_step g t tokens) (fun c => exists ts, minv c ts)
        (fun r => forall ps, r = Ok ps -> exists tr j, parse_tree g start w tr /\ ps = postorder tr /\ moves g t 0 tr j) (parse_bits g tokens) (parse_init a)) as HR.
      destruct (run _ _ _) as [c|r]; [discriminate|]. intros ->. eapply HR; [| | |reflexivity].
      - intros s s' [ts Hs] E. eapply minv_step; eauto.
      - intros s r [ts [Hs HM]] E qs ->. pose proof (step_outcome g t A tokens s ts (proj1 Hs)) as O. rewrite E in O. inversion O; subst.
        edestruct (inv_accept g start W Hst t A tokens w Hend) as (tr & Ets & HA1 & HA2); eauto. subst ts.
        inversion HM as [|q0 q1 s1 ts1 tr1 HM1 HM2 Eq]; subst. inversion HM1; subst. eauto.
      - exists []. split; [exact H0|constructor].
    Qed.
  End Ended.

  Lemma accepts_iff w ps : ended tokens w ->
    (parse_impl g t tokens = Ok ps <-> exists tr j, parse_tree g start w tr /\ moves g t 0 tr j /\ ps = postorder tr).
  Proof using W Hst Ht He Heof Hf.
    intros Hend. split.
    - intros E. destruct (parse_moves w Hend ps E) as (tr & j & H1 & H2 & H3). eauto.
    - intros (tr & j & H1 & H2 & ->). eapply moves_parse; eauto.
  Qed.
  Lemma moving_unique w tr tr' j j' : ended tokens w -> parse_tree g start w tr -> moves g t 0 tr j ->
    parse_tree g start w tr' -> moves g t 0 tr' j' -> tr = tr'.
  Proof using W Hst Ht He Heof Hf.
    intros Hend H M H' M'. pose proof (moves_parse w tr j Hend H M) as E. rewrite (moves_parse w tr' j' Hend H' M') in E. injection E as E.
    destruct H as (Ho & Hr & _), H' as (Ho' & Hr' & _). apply (post_inj g); auto. congruence.
  Qed.
End Exact.
