(** States, lookaheads and transitions of the tables by rightmost derivations. *)
From Verif Require Import Base Grammar GrammarSpec GrammarProofs First FirstProofs Item ItemSpec ItemProofs ItemPlain Table TableSpec MergeProofs TableProofs TableFacts
  Parse ParseSpec TreeFacts Auto ParseProofs ParseTerm ParseCycle ParseComplete Report ReportSpec ReportProofs ReportExact ViableSpec ViableProofs.

Section Tables.
  Variables (g : grammar) (start : str).
  Hypothesis W : wf_grammar g start.
  Hypothesis Hst : g_start g = aug_name start.
  Hypothesis He : eps_free g.
  Hypothesis Heof : eof_free g.
  Hypothesis Hprod : all_productive g.
  Variables (hash : list item -> N) (t : tables).
  Hypothesis Ht : make_tables hash g = Ok t.
  Let F := F_std g.
  Let A : auto g t := tables_auto g start W Hst hash t Ht.
  Let at_iff : forall u p d k, lr_at g u p d k <-> valid g start u p d k := lr_at_iff g start W He Heof Hprod.

  Lemma core_at u i : state_for g start t u i <-> same_core (st t i) (lr_at g u).
  Proof using W He Heof Hprod.
    split; intros H p d; rewrite (H p d); split; intros [k Hk]; exists k; apply at_iff; auto.
  Qed.
  Lemma st_has i s : nth_error (t_states t) i = Some s -> set_eq (st t i) (has s).
  Proof. intros Hs p d k. split; [intros (s' & Hs' & H); congruence|intros H; exists s; auto]. Qed.

  Lemma state_some i s : nth_error (t_states t) i = Some s -> exists u, viable g start u /\ state_for g start t u i.
  Proof using W He Heof Hprod Ht.
    intros Hs. destruct (make_tables_built _ _ _ _ W Ht) as (lr0 & m & B).
    destruct (lalr_std_in g start W He lr0 _ m (b_items _ _ _ _ _ B) (b_merged _ _ _ _ _ B) i s Hs) as (I & HI & _ & Hc).
    destruct (state_lr_at g I HI) as (u & -> & p & d & k & Hk). exists u. split.
    - exists p, d, k. apply at_iff, Hk.
    - apply core_at. apply (same_core_eq _ _ _ (st_has i s Hs)), Hc.
  Qed.
  Lemma viable_state u : viable g start u -> lr_state g F (lr_at g u).
  Proof using W He Heof Hprod. intros (p & d & k & H). apply lr_at_state. exists p, d, k. apply at_iff, H. Qed.
  Lemma some_state u : viable g start u -> exists i, state_for g start t u i.
  Proof using W He Heof Hprod Ht.
    intros Hv. destruct (make_tables_built _ _ _ _ W Ht) as (lr0 & m & B).
    destruct (lalr_std_all g start W He lr0 _ m (b_items _ _ _ _ _ B) (b_merged _ _ _ _ _ B) _ (viable_state u Hv)) as (i & s & Hs & _ & Hc).
    exists i. apply core_at. apply (same_core_eq _ _ _ (st_has i s Hs)), Hc.
  Qed.
  Lemma state_for_st u i : viable g start u -> state_for g start t u i -> exists s, nth_error (t_states t) i = Some s.
  Proof. intros (p & d & k & H) Hf. destruct (proj2 (Hf p d) (ex_intro _ k H)) as (k' & s & Hs & _). eauto. Qed.
  Lemma state_unique u i j : viable g start u -> state_for g start t u i -> state_for g start t u j -> i = j.
  Proof using W Ht.
    intros Hv Hi Hj. destruct (make_tables_built _ _ _ _ W Ht) as (lr0 & m & B). pose proof (b_merged _ _ _ _ _ B) as Hm.
    destruct (state_for_st u i Hv Hi) as [s Hs]. destruct (state_for_st u j Hv Hj) as [s' Hs'].
    apply (lalr_core lr0 _ m Hm i j s s' Hs Hs').
    apply (same_core_sets s s' (st t i) (st t j)).
    1,2: eapply (lalr_wf lr0 _ m Hm); eauto using nth_error_In.
    1,2: apply set_eq_sym, st_has; auto.
    intros p d. rewrite (Hi p d), (Hj p d). reflexivity.
  Qed.

  Lemma st_valid i p d k : st t i p d k <-> exists u, state_for g start t u i /\ valid g start u p d k.
  Proof using W He Heof Hprod Ht.
    destruct (make_tables_built _ _ _ _ W Ht) as (lr0 & m & B). split.
    - intros (s & Hs & Hk).
      destruct (lalr_std_in g start W He lr0 _ m (b_items _ _ _ _ _ B) (b_merged _ _ _ _ _ B) i s Hs) as (I & HI & Hq & Hc).
      destruct (proj1 (Hq p d k) Hk) as (I' & HI' & Hc' & Hk'). clear Hk. rename Hk' into Hk. destruct (state_lr_at g I' HI') as (u & -> & _). exists u. split; [|apply at_iff, Hk].
      apply core_at. apply (same_core_eq _ _ _ (st_has i s Hs)). intros q e. rewrite (Hc q e). apply Hc'.
    - intros (u & Hu & Hk). assert (Hv : viable g start u) by (exists p, d, k; exact Hk).
      destruct (state_for_st u i Hv Hu) as [s Hs].
      destruct (lalr_std_in g start W He lr0 _ m (b_items _ _ _ _ _ B) (b_merged _ _ _ _ _ B) i s Hs) as (I & HI & Hq & Hc).
      exists s. split; auto. apply Hq. exists (lr_at g u). split; [apply viable_state, Hv|]. split; [|apply at_iff, Hk].
      apply core_at in Hu. apply (same_core_eq _ _ _ (st_has i s Hs)) in Hu. intros q e. rewrite <- (Hu q e). symmetry. apply Hc.
  Qed.

  (** Closures of sets with equal cores have equal cores, as FIRST is never empty. *)
  Definition term_la (I : lrset) : Prop := forall p d k, I p d k -> exists a, nth_error (g_tokens g) k = Some a /\ terminal a.
  Lemma first_some p d a : terminal a -> (exists k, nth_error (g_tokens g) k = Some a) -> exists b kb, F (rest g p d ++ [a]) b /\ tok g kb b.
  Proof using W He Heof Hprod.
    intros Ha [ka Hka]. destruct (productive_all g Hprod _ (rest_used g p d)) as (m & Hm & Hu & Hd). destruct m as [|b m].
    - exists a, ka. destruct (rest g p d) as [|y l] eqn:E; [|exfalso; eapply (derives_nonempty g _ _ He Hd); [discriminate|reflexivity]].
      split; [|eapply nth_tok; eauto]. split; auto. exists []. constructor.
    - inversion Hu as [|? ? Hb _]; subst. destruct (used_token g start W b Hb) as [kb Hkb]. exists b, kb. split; [|eapply nth_tok; eauto].
      inversion Hm; subst. split; auto. exists (m ++ [a]). apply (derives_app g _ (b :: m)); auto. constructor.
  Qed.
  Lemma clo_term (K : lrset) : term_la K -> term_la (clo g F K).
  Proof.
    intros HK p d k. induction 1 as [p d k H|p d k a q pq b k' Hc IH Hs Hq Ha [Hb _] Hk']; [eapply HK, H|]. exists b. split; auto. apply Hk'.
  Qed.
  Lemma clo_core (K K' : lrset) : term_la K' -> (forall p d, (exists k, K p d k) -> exists k, K' p d k) ->
    forall p d k, clo g F K p d k -> exists k', clo g F K' p d k'.
  Proof using W He Heof Hprod.
    intros HK H p d k. induction 1 as [p d k Hk|p d k a q pq b k' Hc [k1 IH] Hs Hq Ha HF Hb].
    - destruct (H p d (ex_intro _ k Hk)) as [k' Hk']. exists k'. apply clo_base, Hk'.
    - destruct (clo_term K' HK _ _ _ IH) as (a1 & Ha1 & Ht1). destruct (first_some p (S d) a1 Ht1 (ex_intro _ _ Ha1)) as (b1 & kb & HF1 & Hb1).
      exists kb. eapply clo_rule; eauto.
  Qed.
  Lemma valid_term u p d k : valid g start u p d k -> exists a, nth_error (g_tokens g) k = Some a /\ terminal a.
  Proof using W. intros (pr & a & w & _ & _ & _ & _ & Hw & Hk). destruct (next_tok g start W w k Hw Hk) as (b & Hb & _ & Htb). eauto. Qed.

  Hypothesis Hf : start_fresh g.

  Lemma state_for_0 : state_for g start t [] 0.
  Proof using W Hst He Heof Hprod Ht.
    apply core_at. change (lr_at g []) with (clo g F init_set).
    assert (Hc : same_core (clo g F init_set) (st t 0)).
    { apply (core_under g start W hash t Ht He).
      - intros p d k (-> & -> & ->). apply (a_init _ _ A).
      - intros p d k H. apply (a_zero _ _ A) in H. discriminate.
      - intros _. exists 0. repeat split. }
    intros p d. symmetry. apply Hc.
  Qed.
  Lemma state_for_trans u i x j : state_for g start t u i -> trans g t i x j -> state_for g start t (u ++ [x]) j.
  Proof using W Hst He Heof Hprod Ht Hf.
    intros Hu ((p1 & d1 & k1 & Hj) & Hb & Hp & Hfw). apply core_at. rewrite lr_at_snoc.
    assert (Hno : ~ exists k, st t j 0 0 k).
    { intros [k Hk]. destruct (Hp 0 _ _ Hk (wg_prod0 _ _ W)) as (p' & d' & k' & _ & pr' & Hp' & Hx).
      cbn [p_name] in Hx. apply (Hf pr' (nth_error_In _ _ Hp')). rewrite Hst. eapply nth_error_In, Hx. }
    assert (Hc : same_core (clo g F (move g (st t i) x)) (st t j)).
    { apply (core_under g start W hash t Ht He).
      - intros p d k (d' & -> & H & Hs). auto.
      - intros p d k H. destruct (Hb _ _ _ H) as (Hsy & k' & Hk'). exists k', d. auto.
      - intros H. exfalso. eauto. }
    apply core_at in Hu. intros p d. rewrite <- (Hc p d).
    assert (T1 : term_la (move g (st t i) x)).
    { intros q e k (e' & -> & H & _). apply st_valid in H as (u' & _ & H). eapply valid_term, H. }
    assert (T2 : term_la (move g (lr_at g u) x)).
    { intros q e k (e' & -> & H & _). apply at_iff in H. eapply valid_term, H. }
    split; intros [k Hk].
    - eapply clo_core; [exact T2| |exact Hk]. intros q e (k' & e' & -> & H & Hs).
      destruct (proj1 (Hu q e') (ex_intro _ _ H)) as [k2 H2]. exists k2, e'. auto.
    - eapply clo_core; [exact T1| |exact Hk]. intros q e (k' & e' & -> & H & Hs).
      destruct (proj2 (Hu q e') (ex_intro _ _ H)) as [k2 H2]. exists k2, e'. auto.
  Qed.
  Lemma walks_state u i : walks g t 0 u i -> state_for g start t u i.
  Proof using W Hst He Heof Hprod Ht Hf.
    induction 1 as [|u j x k j' _ IH Hx Hk Ha|u j B j' _ IH Ha].
    - apply state_for_0.
    - destruct (a_shift _ _ A _ _ _ Ha) as (x' & _ & Hk' & _ & Htr). assert (x = x') as <- by (destruct Hk, Hk'; congruence).
      eapply state_for_trans; eauto.
    - eapply state_for_trans; eauto. apply (a_goto _ _ A _ _ _ Ha).
  Qed.
  Lemma viable_walks : closed g t -> forall u, viable g start u -> exists i, walks g t 0 u i.
  Proof using W Hst He Heof Hprod Ht Hf.
    intros Hcl. induction u as [|x u IH] using rev_ind; intros (p & d & k & Hv); [exists 0; constructor|].
    apply at_iff in Hv. rewrite lr_at_snoc in Hv. apply (clo_some g) in Hv as (q & e & l & e' & -> & H & Hx). apply at_iff in H.
    destruct IH as [i Hi]; [exists q, e', l; exact H|]. destruct (proj2 (walks_state _ _ Hi q e') (ex_intro _ _ H)) as [k' Hk'].
    destruct (Hcl i q e' k' x Hk' Hx) as [H1 H2].
    assert (Hux : used g x) by (destruct Hx as (pr & Hp & Hx); exists pr; split; eapply nth_error_In; eauto).
    destruct x as [n| | | |] eqn:Ex.
    all: try (destruct (used_token g start W _ Hux) as [kx Hkx]; apply (nth_tok g start W Heof) in Hkx;
      destruct (H1 ltac:(intros n' C; discriminate C) kx Hkx) as [j Hj]; exists j; eapply wk_shift; eauto; intros n' C; discriminate C).
    all: try (destruct (H2 _ eq_refl) as [j Hj]; exists j; eapply wk_goto; eauto).
  Qed.
End Tables.
