(** The tables as an automaton: the facts about states and transitions the parser proofs use. *)
From Verif Require Import Base Grammar GrammarSpec GrammarProofs First Item ItemSpec ItemProofs ItemPlain Table
  MergeProofs TableSpec TableProofs TableFacts Parse ParseSpec.

Definition trans (g : grammar) (t : tables) (i : nat) (x : sym) (j : nat) : Prop :=
  (exists p d k, st t j p d k) /\
  (forall p d k, st t j p (S d) k -> sym_at g p d x /\ exists k', st t i p d k') /\
  (forall p k pr, st t j p 0 k -> nth_error (g_prods g) p = Some pr ->
     exists p' d' k', st t j p' d' k' /\ sym_at g p' d' (SNon (p_name pr))) /\
  (forall p d k, st t i p d k -> sym_at g p d x -> st t j p (S d) k).

Record auto (g : grammar) (t : tables) : Prop := {
  a_zero : forall p d k, st t 0 p d k -> d = 0;
  a_init : st t 0 0 0 0;
  a_dom : forall i p d k, st t i p d k -> exists pr, nth_error (g_prods g) p = Some pr /\ d <= length (p_syms pr) /\ k < length (g_tokens g);
  a_shift : forall i k j, tbl_get (t_action t) i k = Some (Shift j) ->
    exists x, terminal x /\ tok g k x /\ (exists p d k', st t i p d k' /\ sym_at g p d x) /\ trans g t i x j;
  a_reduce : forall i k p, tbl_get (t_action t) i k = Some (Reduce p) ->
    ~ (k = 0 /\ p = 0) /\ exists d, complete g p d /\ st t i p d k;
  a_accept : forall i k, tbl_get (t_action t) i k = Some Accept -> k = 0 /\ exists d, complete g 0 d /\ st t i 0 d 0;
  a_goto : forall i A j, tbl_get (t_goto t) i A = Some j -> trans g t i (SNon A) j;
  a_complete : forall i p d k, st t i p d k -> complete g p d ->
    tbl_get (t_action t) i k = Some (if (k =? 0) && (p =? 0) then Accept else Reduce p);
  a_one : forall i p d p' d' k, st t i p d k -> complete g p d -> st t i p' d' k -> complete g p' d' -> (p, d) = (p', d');
  a_parent : forall i p k pr, st t i p 0 k -> nth_error (g_prods g) p = Some pr -> p = 0 /\ k = 0 \/
     exists p' d' k', st t i p' d' k' /\ sym_at g p' d' (SNon (p_name pr));
  a_start_la : start_fresh g -> forall i d k, st t i 0 d k -> k = 0 }.

Lemma clo_kernel g F K p d k : clo g F K p d k -> K p d k \/ d = 0 /\
  exists p' d' k' pr, clo g F K p' d' k' /\ nth_error (g_prods g) p = Some pr /\ sym_at g p' d' (SNon (p_name pr)).
Proof. destruct 1 as [p d k H|p d k a q pq b k' Hc Hs Hq Ha HF Ht]; [auto|right; split; auto; exists p, d, k, pq; auto]. Qed.

Section Make.
  Variables (g : grammar) (start : str).
  Hypothesis W : wf_grammar g start.
  Hypothesis Hst : g_start g = aug_name start.
  Variables (hash : list item -> N) (t : tables).
  Hypothesis Ht : make_tables hash g = Ok t.

  Lemma target_trans lr0 m i s x j : built hash g t lr0 m -> nth_error (t_states t) i = Some s ->
    target g lr0 (t_states t) s x j -> trans g t i x j.
  Proof using W.
    intros B Hs (u & s' & E & Hj & Hc & Hi & _).
    pose proof (b_items _ _ _ _ _ B) as El. pose proof (b_merged _ _ _ _ _ B) as Hm.
    destruct (lalr_goto g start W lr0 El _ m Hm s x (nth_error_In _ _ Hs)) as (u' & E' & Hw & Hr).
    rewrite E in E'. injection E' as <-.
    assert (Hws : wf_set s') by (eapply (lalr_wf lr0 _ m Hm); eauto using nth_error_In).
    assert (C : forall p d k, has s' p d k -> exists k', has u p d k').
    { intros p d k H. apply (core_has u p d Hw). rewrite <- Hc. apply (core_has s' p d Hws). eauto. }
    assert (Est : forall p d k, st t j p d k <-> has s' p d k).
    { intros p d k. split; [intros (s1 & H1 & H2); congruence|intros H; exists s'; auto]. }
    split; [|split; [|split]].
    - destruct (lalr_nonempty g start W lr0 El _ m Hm s' (nth_error_In _ _ Hj)) as (p & d & k & H). exists p, d, k. apply Est, H.
    - intros p d k H. apply Est, C in H as [k' H]. apply Hr, clo_kernel in H as [(d' & Ed & H & Hx)|[C0 _]]; [|discriminate].
      injection Ed as <-. split; auto. exists k', s. auto.
    - intros p k pr H Hp. apply Est, C in H as [k' H]. apply Hr, clo_kernel in H as [(d' & Ed & _)|(_ & p' & d' & k1 & pr' & H1 & H2 & H3)]; [discriminate|].
      rewrite Hp in H2. injection H2 as <-. exists p', d', k1. split; auto. apply Est, Hi, Hr, H1.
    - intros p d k (s1 & H1 & H2) Hx. rewrite Hs in H1. injection H1 as <-. apply Est, Hi, Hr, clo_base.
      exists d. auto.
  Qed.

  Lemma st_lr lr0 m i p d k : built hash g t lr0 m -> st t i p d k ->
    exists I, lr g I /\ I p d k /\ (forall p d k, I p d k -> st t i p d k) /\
      (forall p d k, st t i p d k -> exists k', I p d k').
  Proof using W.
    intros B (s & Hs & H). pose proof (b_items _ _ _ _ _ B) as El. pose proof (b_merged _ _ _ _ _ B) as Hm.
    destruct (lalr_from lr0 _ m Hm i s p d k Hs H) as (n & s1 & _ & Hs1 & Hk & Ec & Hi).
    destruct (lr_final g start W lr0 El) as (_ & _ & Hall & _). destruct (Hall s1 (nth_error_In _ _ Hs1)) as (Hw & I & HI & Hr).
    exists I. split; auto. split; [apply Hr, Hk|]. split.
    - intros p' d' k' H'. exists s. split; auto. apply Hi, Hr, H'.
    - intros p' d' k' (s' & Hs' & H'). rewrite Hs in Hs'. injection Hs' as <-.
      assert (Hws : wf_set s) by (eapply (lalr_wf lr0 _ m Hm); eauto using nth_error_In).
      assert (Hc : In (p', d') (core s1)) by (rewrite Ec; apply (core_has s p' d' Hws); eauto).
      apply (core_has s1 p' d' Hw) in Hc as [k1 Hk1]. exists k1. apply Hr, Hk1.
  Qed.

  Lemma lr_start_la : start_fresh g -> forall I, lr g I -> forall d k, I 0 d k -> k = 0.
  Proof using W Hst.
    intros Hf.
    assert (G : forall K : lrset, (forall d k, K 0 d k -> k = 0) -> forall d k, clo g (F_code g) K 0 d k -> k = 0).
    { intros K HK d k H. apply clo_kernel in H as [H|(_ & p' & d' & k' & pr & _ & Hp & (pr' & Hp' & Hx))]; [eauto|].
      exfalso. rewrite (wg_prod0 _ _ W) in Hp. injection Hp as <-. cbn [p_name] in Hx.
      apply (Hf pr' (nth_error_In _ _ Hp')). rewrite Hst. eapply nth_error_In, Hx. }
    induction 1 as [|I x HI IH Hne]; apply G.
    - intros d k (_ & _ & ->). reflexivity.
    - intros d k (d' & -> & H & _). eauto.
  Qed.

  Lemma tables_auto : auto g t.
  Proof using W Hst Ht.
    destruct (make_tables_built _ _ _ _ W Ht) as (lr0 & m & B).
    pose proof (b_items _ _ _ _ _ B) as El. pose proof (b_merged _ _ _ _ _ B) as Hm.
    assert (Hz : exists s i0, nth_error (t_states t) 0 = Some s /\ core s = core i0 /\ wf_set s /\ wf_set i0 /\
       represents i0 (clo g (F_code g) init_set) /\ forall p d k, has i0 p d k -> has s p d k).
    { destruct (lr_zero g _ W lr0 El _ m Hm) as (i0 & H0 & Hr & Hz).
      destruct (mg_source _ _ _ Hm 0 0 Hz) as (s0 & s & E0 & Hs). rewrite H0 in E0. injection E0 as <-.
      destruct (lalr_member lr0 _ m Hm 0 0 i0 s Hz H0 Hs) as [Ec Hi]. exists s, i0. split; auto. split; auto.
      split; [eapply (lalr_wf lr0 _ m Hm); eauto using nth_error_In|].
      split; [eapply (lr_wf g _ W lr0 El); eauto using nth_error_In|]. auto. }
    constructor.
    - intros p d k (s & Hs & H). destruct Hz as (s0 & i0 & H0 & Ec & Hw & Hw0 & Hr & _). rewrite H0 in Hs. injection Hs as <-.
      assert (Hc : In (p, d) (core i0)) by (rewrite <- Ec; apply (core_has s0 p d Hw); eauto).
      apply (core_has i0 p d Hw0) in Hc as [k' Hk']. apply Hr, clo_kernel in Hk' as [(_ & -> & _)|[-> _]]; reflexivity.
    - destruct Hz as (s0 & i0 & H0 & Ec & Hw & Hw0 & Hr & Hi). exists s0. split; auto. apply Hi, Hr, clo_base. repeat split.
    - intros i p d k (s & Hs & H). eapply (lalr_valid g _ W lr0 El _ m Hm); eauto using nth_error_In.
    - intros i k j Ha. apply (b_action _ _ _ _ _ B) in Ha as (s & p & d & Hs & [(_ & _ & E)|(x & j' & Hx & Hx' & Htk & [k' Hk'] & Htg & E)]).
      + destruct ((k =? 0) && (p =? 0)); discriminate.
      + injection E as <-. exists x. split; auto. split; auto. split.
        * exists p, d, k'. split; auto. exists s. auto.
        * eapply target_trans; eauto.
    - intros i k p Ha. apply (b_action _ _ _ _ _ B) in Ha as (s & p' & d & Hs & [(Hc & Hh & E)|(x & j' & _ & _ & _ & _ & _ & E)]); [|discriminate].
      destruct ((k =? 0) && (p' =? 0)) eqn:Eb; [discriminate|]. injection E as <-. split.
      + intros [-> ->]. discriminate.
      + exists d. split; auto. exists s. auto.
    - intros i k Ha. apply (b_action _ _ _ _ _ B) in Ha as (s & p' & d & Hs & [(Hc & Hh & E)|(x & j' & _ & _ & _ & _ & _ & E)]); [|discriminate].
      destruct ((k =? 0) && (p' =? 0)) eqn:Eb; [|discriminate]. apply andb_true_iff in Eb as [E1 E2].
      apply Nat.eqb_eq in E1, E2. subst. split; auto. exists d. split; auto. exists s. auto.
    - intros i A j Ha. apply (b_goto _ _ _ _ _ B) in Ha as (s & Hs & _ & Htg). eapply target_trans; eauto.
    - intros i p d k (s & Hs & Hh) Hc. apply (b_action _ _ _ _ _ B). exists s, p, d. split; auto. left. auto.
    - intros i p d p' d' k (s & Hs & Hh) Hc (s' & Hs' & Hh') Hc'. rewrite Hs in Hs'. injection Hs' as <-.
      eapply (b_one _ _ _ _ _ B i s p d _ p' d' _ k Hs); left; split; auto.
    - intros i p k pr H Hp. destruct (st_lr lr0 m i p 0 k B H) as (I & HI & Hk & Hi & _).
      assert (G : (exists K : lrset, (forall p d k, K p d k -> d <> 0 \/ p = 0 /\ k = 0) /\ forall p d k, clo g (F_code g) K p d k <-> I p d k)).
      { inversion HI as [|J x HJ Hne].
        - exists init_set. split; [intros p1 d1 k1 (-> & -> & ->); auto|intros p1 d1 k1; reflexivity].
        - exists (move g J x). split; [intros p1 d1 k1 (d' & -> & _); auto|intros p1 d1 k1; reflexivity]. }
      destruct G as (K & HK & Hq). apply Hq, clo_kernel in Hk as [Hk|(_ & p' & d' & k' & pr' & H1 & H2 & H3)].
      + apply HK in Hk as [C|Hk]; [congruence|auto].
      + right. rewrite Hp in H2. injection H2 as <-. exists p', d', k'. split; auto. apply Hi, Hq, H1.
    - intros Hf i d k H. destruct (st_lr lr0 m i 0 d k B H) as (I & HI & Hk & _). eapply lr_start_la; eauto.
  Qed.

  (** States are closed under closure with the standard FIRST. *)
  Lemma st_closed : eps_free g -> forall i p d k a q pq b k', st t i p d k -> sym_at g p d (SNon (p_name pq)) ->
    nth_error (g_prods g) q = Some pq -> nth_error (g_tokens g) k = Some a -> F_std g (rest g p (S d) ++ [a]) b -> tok g k' b ->
    st t i q 0 k'.
  Proof using W Ht.
    intros He i p d k a q pq b k' H Hs Hq Ha HF Hk'.
    destruct (make_tables_built _ _ _ _ W Ht) as (lr0 & m & B).
    destruct (st_lr lr0 m i p d k B H) as (I & HI & Hk & Hi & _).
    destruct (lr_final g start W lr0 (b_items _ _ _ _ _ B)) as (_ & _ & _ & _ & HG).
    apply Hi. apply (lr_closed g I HI). eapply clo_rule; eauto using clo_base.
    destruct (HG I HI _ _ _ Hk) as [_ Hrd]. destruct (Hrd _ Hs) as (_ & a' & Ha' & s & Es & _).
    rewrite Ha in Ha'. injection Ha' as <-. apply (F_code_std_at g start W He p (S d) k a s b Ha Es), HF.
  Qed.

  (** FIRST is never empty where the closure needs it. *)
  Lemma st_first : eps_free g -> forall i p d k B, st t i p d k -> sym_at g p d (SNon B) ->
    has_rule g B /\ exists a b kb, nth_error (g_tokens g) k = Some a /\ F_std g (rest g p (S d) ++ [a]) b /\ tok g kb b.
  Proof using W Ht.
    intros He i p d k B H Hs.
    destruct (make_tables_built _ _ _ _ W Ht) as (lr0 & m & Bt).
    destruct (st_lr lr0 m i p d k Bt H) as (I & HI & Hk & Hi & _).
    destruct (lr_final g start W lr0 (b_items _ _ _ _ _ Bt)) as (_ & _ & _ & _ & HG).
    destruct (HG I HI _ _ _ Hk) as [_ Hrd]. destruct (Hrd _ Hs) as (Hr & a & Ha & s & Es & Hin).
    split; auto. destruct (first_at_nonempty g start W He p (S d) k a s Ha Es) as [y Hy].
    destruct (proj1 (get_token_idx_In g y) (Hin y Hy)) as [k' Hk']. apply tok_idx in Hk'.
    exists a, y, k'. split; auto. split; auto. apply (F_code_std_at g start W He p (S d) k a s y Ha Es). exists s. auto.
  Qed.
End Make.
