(** Termination of the parser: it stops within the fuel or runs for ever, and it runs for ever
    only in a cycle of unit reductions; closed tables have none. *)
From Verif Require Import Base Grammar GrammarSpec GrammarProofs First FirstProofs Item ItemSpec ItemProofs ItemPlain Table TableFacts Parse ParseSpec TreeFacts Auto ParseProofs.

Definition forever (g : grammar) (t : tables) (tokens : list nat) (c : pstate) : Prop :=
  forall n, exists c', nsteps (parse_step g t tokens) n c c'.

Section Term.
  Variables (g : grammar) (start : str).
  Hypothesis W : wf_grammar g start.
  Hypothesis Hst : g_start g = aug_name start.
  Variable t : tables.
  Hypothesis A : auto g t.
  Hypothesis He : eps_free g.

  (** ** The trace does not influence the run *)
  Definition eqc (c c' : pstate) : Prop := ps_stack c = ps_stack c' /\ ps_i c = ps_i c' /\ ps_a c = ps_a c'.

  Lemma eqc_step tokens c c' d : eqc c d -> parse_step g t tokens c = inl c' ->
    exists d', parse_step g t tokens d = inl d' /\ eqc c' d'.
  Proof.
    intros (E1 & E2 & E3) H. unfold parse_step in *. rewrite <- E1, <- E2, <- E3.
    destruct (ps_stack c) as [|q s]; [discriminate|]. destruct (tbl_get (t_action t) q (ps_a c)) as [[j|p|]|]; try discriminate.
    - destruct (next_token tokens (ps_i c) (ps_a c)) as [i' a']. injection H as <-. eexists. split; [reflexivity|]. repeat split.
    - destruct (get_production g p) as [pr|]; [|discriminate]. destruct (_ <? _); [discriminate|].
      destruct (skipn _ _) as [|q' s']; [discriminate|]. destruct (tbl_get (t_goto t) q' (p_name pr)) as [j|]; [|discriminate].
      injection H as <-. eexists. split; [reflexivity|]. repeat split.
  Qed.
  Lemma eqc_nsteps tokens n c c' : nsteps (parse_step g t tokens) n c c' -> forall d, eqc c d ->
    exists d', nsteps (parse_step g t tokens) n d d' /\ eqc c' d'.
  Proof.
    induction 1 as [c|n c c1 c2 E H IH]; intros d Hd.
    - exists d. split; [constructor|exact Hd].
    - destruct (eqc_step _ _ _ _ Hd E) as (d1 & E1 & Hd1). destruct (IH d1 Hd1) as (d2 & H2 & Hd2).
      exists d2. split; auto. econstructor; eauto.
  Qed.
  Lemma cycle_forever tokens m c d : nsteps (parse_step g t tokens) (S m) c d -> eqc c d -> forever g t tokens c.
  Proof.
    intros Hc Heq n. induction n as [n IH] using lt_wf_ind.
    destruct (le_lt_dec n (S m)) as [Hle|Hlt].
    - replace (S m) with (n + (S m - n)) in Hc by lia. apply nsteps_split in Hc as (c' & H & _). eauto.
    - destruct (IH (n - S m)) as (c' & Hc'); [lia|]. destruct (eqc_nsteps _ _ _ _ Hc' _ Heq) as (d' & Hd' & _).
      exists d'. replace n with (S m + (n - S m)) by lia. eapply nsteps_trans; eauto.
  Qed.
  Lemma forever_prefix tokens n c d : nsteps (parse_step g t tokens) n c d -> forever g t tokens d -> forever g t tokens c.
  Proof.
    intros H Hd m. destruct (le_lt_dec m n) as [Hle|Hlt].
    - replace n with (m + (n - m)) in H by lia. apply nsteps_split in H as (c' & H & _). eauto.
    - destruct (Hd (m - n)) as [c' Hc']. exists c'. replace m with (n + (m - n)) by lia. eapply nsteps_trans; eauto.
  Qed.
  Lemma forever_no_end tokens c n c' r : forever g t tokens c -> nsteps (parse_step g t tokens) n c c' ->
    parse_step g t tokens c' = inr r -> False.
  Proof.
    intros Hf H E. destruct (Hf (n + 1)) as [d Hd]. apply nsteps_split in Hd as (c1 & H1 & H2).
    pose proof (nsteps_det _ _ _ _ _ H H1) as <-. inversion H2; congruence.
  Qed.

  (** ** Chains of unit reductions *)
  Inductive ureds (q0 a : nat) : nat -> list nat -> nat -> Prop :=
  | ur_nil j : ureds q0 a j [] j
  | ur_cons j p pr j1 ps j' : tbl_get (t_action t) j a = Some (Reduce p) -> nth_error (g_prods g) p = Some pr ->
      length (p_syms pr) = 1 -> tbl_get (t_goto t) q0 (p_name pr) = Some j1 -> ureds q0 a j1 ps j' -> ureds q0 a j (p :: ps) j'.

  Lemma ureds_nsteps tokens q0 a j ps j' : ureds q0 a j ps j' -> forall s i tr,
    nsteps (parse_step g t tokens) (length ps) (PState (j :: q0 :: s) i a tr) (PState (j' :: q0 :: s) i a (tr ++ ps)).
  Proof.
    induction 1 as [j|j p pr j1 ps j' Ha Hp Hl Hg H IH]; intros s i tr; cbn [length].
    - rewrite app_nil_r. constructor.
    - econstructor.
      + unfold parse_step. cbn [ps_stack ps_a ps_i ps_trace]. rewrite Ha. unfold get_production. rewrite Hp, Hl.
        replace (length (j :: q0 :: s) <? 1) with false by reflexivity. cbn [skipn]. rewrite Hg. reflexivity.
      + replace (tr ++ p :: ps) with ((tr ++ [p]) ++ ps) by (rewrite <- app_assoc; reflexivity). apply IH.
  Qed.
  Lemma ureds_app q0 a j ps1 ps2 j' : ureds q0 a j (ps1 ++ ps2) j' <-> exists j1, ureds q0 a j ps1 j1 /\ ureds q0 a j1 ps2 j'.
  Proof.
    split.
    - revert j. induction ps1 as [|p ps IH]; intros j H; simpl in H; [exists j; split; [constructor|exact H]|].
      inversion H; subst. destruct (IH j1 ltac:(assumption)) as (j2 & HA & HB). exists j2. split; auto. econstructor; eauto.
    - intros (j1 & H1 & H2). revert H2. induction H1; simpl; auto. intros. econstructor; eauto.
  Qed.
  Lemma ureds_snoc q0 a j ps p j' : ureds q0 a j (ps ++ [p]) j' -> exists pr, nth_error (g_prods g) p = Some pr /\
    tbl_get (t_goto t) q0 (p_name pr) = Some j'.
  Proof.
    intros H. apply ureds_app in H as (j1 & _ & H). inversion H as [|? ? pr j2 ? ? H1 H2 H3 H4 H5]; subst. inversion H5; subst. eauto.
  Qed.
  Lemma ureds_prods q0 a j ps j' : ureds q0 a j ps j' -> forall p, In p ps -> p < length (g_prods g).
  Proof. induction 1; intros x Hx; [destruct Hx|]. destruct Hx as [<-|Hx]; auto. eapply nth_error_lt; eauto. Qed.

  Definition stops (q0 a j : nat) : Prop := forall p pr, tbl_get (t_action t) j a = Some (Reduce p) ->
    nth_error (g_prods g) p = Some pr -> length (p_syms pr) = 1 -> tbl_get (t_goto t) q0 (p_name pr) = None.
  Lemma unit_phase q0 a K : forall j, (exists ps j', length ps = K /\ ureds q0 a j ps j') \/
    (exists ps j', length ps < K /\ ureds q0 a j ps j' /\ stops q0 a j').
  Proof.
    induction K as [|K IH]; intros j.
    - left. exists [], j. split; [reflexivity|constructor].
    - destruct (tbl_get (t_action t) j a) as [[|p|]|] eqn:Ea.
      2: destruct (nth_error (g_prods g) p) as [pr|] eqn:Hp.
      2: destruct (Nat.eq_dec (length (p_syms pr)) 1) as [Hl|Hl].
      2: destruct (tbl_get (t_goto t) q0 (p_name pr)) as [j1|] eqn:Eg.
      2:{ destruct (IH j1) as [(ps & j' & Hlen & H)|(ps & j' & Hlen & H & Hs)].
          - left. exists (p :: ps), j'. split; [simpl; lia|]. econstructor; eauto.
          - right. exists (p :: ps), j'. split; [simpl; lia|]. split; auto. econstructor; eauto. }
      all: right; exists [], j; split; [simpl; lia|]; split; [constructor|]; intros p' pr' Ea' Hp' Hl'; congruence.
  Qed.

  Lemma dup_nat (l : list nat) : ~ NoDup l -> exists a x b c, l = a ++ x :: b ++ x :: c.
  Proof.
    induction l as [|x l IH]; intros H; [destruct H; constructor|].
    destruct (in_dec Nat.eq_dec x l) as [Hin|Hin].
    - apply in_split in Hin as (b & c & ->). exists [], x, b, c. reflexivity.
    - destruct IH as (a & y & b & c & ->); [intros Hn; apply H; constructor; auto|]. exists (x :: a), y, b, c. reflexivity.
  Qed.

  Lemma ureds_cycle q0 a j ps j' : ureds q0 a j ps j' -> length (g_prods g) < length ps ->
    exists l1 l2 j1, ureds q0 a j l1 j1 /\ l2 <> [] /\ ureds q0 a j1 l2 j1.
  Proof.
    intros H Hl. destruct (dup_nat ps) as (l1 & p & l2 & l3 & ->).
    { intros Hn. assert (Hi : incl ps (seq 0 (length (g_prods g)))).
      { intros x Hx. apply in_seq. pose proof (ureds_prods _ _ _ _ _ H x Hx). lia. }
      pose proof (NoDup_incl_length Hn Hi) as Hle. rewrite seq_length in Hle. lia. }
    replace (l1 ++ p :: l2 ++ p :: l3) with ((l1 ++ [p]) ++ (l2 ++ [p]) ++ l3) in H by (rewrite <- !app_assoc; reflexivity).
    apply ureds_app in H as (j1 & H1 & H). apply ureds_app in H as (j2 & H2 & _).
    pose proof (ureds_snoc _ _ _ _ _ _ H1) as (pr & Hp & E1). pose proof (ureds_snoc _ _ _ _ _ _ H2) as (pr' & Hp' & E2).
    rewrite Hp in Hp'. injection Hp' as <-. rewrite E1 in E2. injection E2 as <-.
    exists (l1 ++ [p]), (l2 ++ [p]), j1. split; auto. split; auto. destruct l2; discriminate.
  Qed.

  Section Ended.
    Variables (tokens w : list nat).
    Hypothesis Hend : ended tokens w.
    Hypothesis Heof : eof_free g.
    Let step := parse_step g t tokens.
    Let K := S (length (g_prods g)).

    Definition phi (c : pstate) : nat := 2 * (length w - ps_i c) + length (ps_stack c).

    (** A step that is not a unit reduction lowers [phi]. *)
    Lemma phi_step c c' ts : inv g t tokens w c ts -> step c = inl c' ->
      (forall q0 s j, ps_stack c = j :: q0 :: s -> stops q0 (ps_a c) j) -> phi c' < phi c.
    Proof using W A He Hend Heof.
      intros HI E Hs. pose proof (step_outcome g t A tokens c ts (proj1 HI)) as O. unfold step in E. rewrite E in O.
      inversion O as [q s x j E1 H1 H2 H3 H4 E5|p pr q' s' j q s k' E1 Hp Hk Hne Hl E2 Hs' Hm Hk' Hg Ht E5| | |]; subst.
      - destruct (inv_shift g start W t tokens w Hend Heof q s x j ts c HI E1 H1 H2 H3 H4) as [_ Hlt].
        unfold phi. cbn [ps_stack ps_i]. rewrite E1. simpl. lia.
      - unfold phi. cbn [ps_stack ps_i]. rewrite E1.
        assert (Hlen : length (q' :: s') = length (q :: s) - length (p_syms pr)) by (rewrite <- E2, skipn_length; reflexivity).
        destruct (He pr (nth_error_In _ _ Hp)) as [Hne' _].
        assert (length (p_syms pr) <> 0) by (destruct (p_syms pr); [congruence|discriminate]).
        destruct (Nat.eq_dec (length (p_syms pr)) 1) as [H1|H1]; [|cbn [length] in Hlen |- *; lia].
        exfalso. rewrite H1 in E2. simpl in E2. subst s. rewrite H1 in *.
        pose proof (a_complete _ _ A q p 1 (ps_a c) Hk) as Ha.
        assert (Hc : complete g p 1) by (exists pr; auto). specialize (Ha Hc).
        destruct ((ps_a c =? 0) && (p =? 0)) eqn:Eb.
        + apply andb_true_iff in Eb as [Eb1 Eb2]. apply Nat.eqb_eq in Eb1, Eb2. tauto.
        + rewrite (Hs q' s' q E1 p pr Ha Hp H1) in Hg. discriminate.
    Qed.

    Lemma inv_nsteps n c c' : nsteps step n c c' -> forall ts, inv g t tokens w c ts -> exists ts', inv g t tokens w c' ts'.
    Proof using W A Hend Heof.
      induction 1 as [c|n c c1 c2 E H IH]; intros ts HI; eauto.
      destruct (inv_step g start W t A tokens w Hend Heof c c1 ts HI E) as [ts' HI']. eauto.
    Qed.

    (** Where a run for ever ends up. *)
    Definition cyclic (c : pstate) : Prop := exists n s i a tr q0 j ps ts,
      nsteps step n c (PState (j :: q0 :: s) i a tr) /\ inv g t tokens w (PState (j :: q0 :: s) i a tr) ts /\
      ps <> [] /\ ureds q0 a j ps j.

    Lemma cyclic_forever c : cyclic c -> forever g t tokens c.
    Proof.
      intros (n & s & i & a & tr & q0 & j & ps & ts & Hn & _ & Hne & Hu).
      eapply forever_prefix; [exact Hn|]. destruct ps as [|p ps]; [congruence|].
      eapply (cycle_forever tokens (length ps)); [exact (ureds_nsteps tokens _ _ _ _ _ Hu s i tr)|]. repeat split.
    Qed.
    Lemma cyclic_prefix n c c' : nsteps step n c c' -> cyclic c' -> cyclic c.
    Proof.
      intros H (m & s & i & a & tr & q0 & j & ps & ts & Hn & H1 & H2 & H3).
      exists (n + m), s, i, a, tr, q0, j, ps, ts. split; [eapply nsteps_trans; eauto|auto].
    Qed.

    Lemma phase c ts : inv g t tokens w c ts -> cyclic c \/
      exists m c1 ts1, m <= K /\ nsteps step m c c1 /\ inv g t tokens w c1 ts1 /\ phi c1 = phi c /\
        (forall q0 s j, ps_stack c1 = j :: q0 :: s -> stops q0 (ps_a c1) j).
    Proof using W A Hend Heof.
      intros HI. destruct c as [[|j [|q0 s]] i a tr].
      - exfalso. destruct HI as [Hs _]. inversion Hs.
      - right. exists 0. eexists. exists ts. split; [lia|]. split; [constructor|]. split; [exact HI|]. split; [reflexivity|].
        intros q0 s j' E. discriminate.
      - destruct (unit_phase q0 a K j) as [(ps & j' & Hl & Hu)|(ps & j' & Hl & Hu & Hs)].
        + left. destruct (ureds_cycle _ _ _ _ _ Hu) as (l1 & l2 & j1 & H1 & Hne & H2); [unfold K in Hl; lia|].
          pose proof (ureds_nsteps tokens _ _ _ _ _ H1 s i tr) as Hn. destruct (inv_nsteps _ _ _ Hn ts HI) as [ts' HI'].
          exists (length l1), s, i, a, (tr ++ l1), q0, j1, l2, ts'. auto.
        + right. pose proof (ureds_nsteps tokens _ _ _ _ _ Hu s i tr) as Hn. destruct (inv_nsteps _ _ _ Hn ts HI) as [ts' HI'].
          exists (length ps), (PState (j' :: q0 :: s) i a (tr ++ ps)), ts'. split; [lia|]. split; [exact Hn|]. split; [exact HI'|].
          split; [reflexivity|]. cbn [ps_stack ps_a]. intros q1 s1 j1 E. injection E as <- <- <-. exact Hs.
    Qed.

    Lemma ends_or_cycles n : forall c ts, inv g t tokens w c ts -> phi c <= n -> cyclic c \/
      exists m c' r, m <= n * (K + 1) /\ nsteps step m c c' /\ step c' = inr r.
    Proof using W A He Hend Heof.
      induction n as [|n IH]; intros c ts HI Hn.
      - exfalso. destruct HI as [Hs _]. pose proof (stacked_length g t _ _ Hs). unfold phi in Hn. lia.
      - destruct (phase c ts HI) as [Hc|(m & c1 & ts1 & Hm & Hn1 & HI1 & Hphi & Hs)]; [auto|].
        destruct (step c1) as [c2|r] eqn:E.
        + pose proof (phi_step c1 c2 ts1 HI1 E Hs) as Hlt.
          destruct (inv_step g start W t A tokens w Hend Heof c1 c2 ts1 HI1 E) as [ts2 HI2].
          assert (Hn2 : nsteps step (m + 1) c c2) by (eapply nsteps_trans; [exact Hn1|econstructor; [exact E|constructor]]).
          destruct (IH c2 ts2 HI2) as [Hc|(m' & c' & r & Hm' & Hn' & Er)]; [lia| |].
          * left. eapply cyclic_prefix; eauto.
          * right. exists (m + 1 + m'), c', r. split; [simpl; lia|]. split; auto. eapply nsteps_trans; eauto.
        + right. exists m, c1, r. split; [simpl; lia|]. split; auto.
    Qed.

    Lemma parse_ends : exists a, nth_error tokens 0 = Some a /\
      ((parse_impl g t tokens = Diverge /\ cyclic (parse_init a)) \/
       exists m c' r, nsteps step m (parse_init a) c' /\ step c' = inr r /\ parse_impl g t tokens = r).
    Proof using W A He Hend Heof.
      destruct (inv_init g t tokens w Hend) as (a & tl & Et & HI).
      exists a. split; [rewrite Et; reflexivity|].
      assert (Hpi : parse_impl g t tokens = match run step (parse_bits g tokens) (parse_init a) with inl _ => Diverge | inr r => r end).
      { unfold parse_impl, step. rewrite Et. reflexivity. }
      destruct (ends_or_cycles (2 * length w + 1) (parse_init a) [] HI) as [Hc|(m & c' & r & Hm & Hn & Er)].
      - unfold phi, parse_init. cbn [ps_i ps_stack length]. lia.
      - left. split; auto. rewrite Hpi. pose proof (run_nsteps step (parse_bits g tokens) (parse_init a)) as HR.
        destruct (run step _ _) as [c1|r1]; auto. destruct HR as (m & c' & _ & Hn & Er). exfalso.
        eapply forever_no_end; [apply cyclic_forever, Hc|exact Hn|exact Er].
      - right. exists m, c', r. split; auto. split; auto. rewrite Hpi.
        erewrite nsteps_run; [reflexivity|exact Hn|exact Er|].
        unfold parse_bits. set (X := ((2 * N.of_nat (length tokens) + 2) * (N.of_nat (length (g_prods g)) + 2))%N).
        assert (HX : (X < 2 ^ N.of_nat (N.size_nat X))%N).
        { pose proof (N.size_gt X) as Hg. replace (N.of_nat (N.size_nat X)) with (N.size X); [exact Hg|].
          clear. unfold N.size, N.size_nat. destruct X as [|p]; auto. induction p; simpl in *; lia. }
        assert (Hx : N.to_nat X < 2 ^ N.size_nat X).
        { pose proof (Nat2N.inj_pow 2 (N.size_nat X)) as E. change (N.of_nat 2) with 2%N in E. lia. }
        eapply Nat.le_lt_trans; [|exact Hx]. clear Hx HX.
        assert (Hlen : length tokens = length w + 1) by (destruct Hend as [-> _]; rewrite app_length; reflexivity).
        subst X. rewrite Hlen. unfold K in Hm.
        replace (N.to_nat ((2 * N.of_nat (length w + 1) + 2) * (N.of_nat (length (g_prods g)) + 2)))
          with ((2 * length w + 4) * (length (g_prods g) + 2)) by lia.
        eapply Nat.le_trans; [exact Hm|]. apply Nat.mul_le_mono; lia.
    Qed.
  End Ended.
End Term.
