(** When no LR(1) states are merged the tokens listed are exactly those that can come next. *)
From Verif Require Import Base Grammar GrammarSpec GrammarProofs First FirstProofs Item ItemSpec ItemProofs ItemPlain Table TableSpec TableFacts MergeProofs TableProofs Parse ParseSpec TreeFacts Auto ParseProofs ParseTerm ParseCycle ParseComplete Report ReportSpec ReportProofs.

Lemma app_eq_mid {B} (a : list B) x c u v : a ++ x :: c = u ++ v ->
  (exists c', u = a ++ x :: c' /\ c = c' ++ v) \/ (exists a', v = a' ++ x :: c /\ a = u ++ a').
Proof.
  revert u. induction a as [|y a IH]; intros [|z u] E; cbn [app] in E.
  - right. exists []. auto.
  - injection E as -> ->. left. exists u. auto.
  - right. exists (y :: a). auto.
  - injection E as -> E. destruct (IH u E) as [(c' & -> & ->)|(a' & -> & ->)]; [left; exists c'; auto|right; exists a'; auto].
Qed.
Lemma derives_split g w w' : derives g w w' -> forall u v, w = u ++ v -> exists u' v', w' = u' ++ v' /\ derives g u u' /\ derives g v v'.
Proof.
  induction 1 as [w|w w1 w2 [a B b c Hr] _ IH]; intros u v E.
  - exists u, v. split; auto. split; constructor.
  - apply app_eq_mid in E as [(c' & -> & ->)|(a' & -> & ->)].
    + destruct (IH (a ++ b ++ c') v) as (u' & v' & E' & H1 & H2); [rewrite <- !app_assoc; reflexivity|].
      exists u', v'. split; auto. split; auto. econstructor; [constructor; exact Hr|exact H1].
    + destruct (IH u (a' ++ b ++ c)) as (u' & v' & E' & H1 & H2); [rewrite <- !app_assoc; reflexivity|].
      exists u', v'. split; auto. split; auto. econstructor; [constructor; exact Hr|exact H2].
Qed.
Lemma derives_nonempty g u v : eps_free g -> derives g u v -> u <> [] -> v <> [].
Proof.
  intros He. induction 1 as [|u v w [a B b c (p & Hp & _ & Hb)] _ IH]; auto. intros _. apply IH.
  destruct (He p Hp) as [Hne _]. rewrite Hb in Hne. intros E. apply app_eq_nil in E as [_ E]. apply app_eq_nil in E as [E _]. auto.
Qed.

Section Canon.
  Variables (g : grammar) (start : str).
  Hypothesis W : wf_grammar g start.
  Hypothesis Hst : g_start g = aug_name start.
  Variables (hash : list item -> N) (t : tables).
  Hypothesis Ht : make_tables hash g = Ok t.
  Hypothesis He : eps_free g.
  Hypothesis Heof : eof_free g.
  Hypothesis Hf : start_fresh g.
  Hypothesis Hd : forall I J, lr_state g (F_std g) I -> lr_state g (F_std g) J -> same_core I J -> set_eq I J.
  Let A : auto g t := tables_auto g start W Hst hash t Ht.

  Lemma st_canon i p d k : st t i p d k -> exists I, lr_state g (F_std g) I /\ set_eq (st t i) I.
  Proof using W Ht He Hd.
    intros (s & Hs & _). destruct (make_tables_built _ _ _ _ W Ht) as (lr0 & m & B).
    destruct (lalr_std_in g start W He lr0 _ m (b_items _ _ _ _ _ B) (b_merged _ _ _ _ _ B) i s Hs) as (I & HI & Hq & _).
    exists I. split; auto. intros q e l. transitivity (has s q e l); [split; [intros (s' & Hs' & H); congruence|intros H; exists s; auto]|].
    rewrite (Hq q e l). split.
    - intros (J & HJ & Hc & Hj). apply (Hd I J HI HJ Hc), Hj.
    - intros Hl. exists I. split; auto. split; auto. intros a b. reflexivity.
  Qed.

  Lemma clo_under i (K : lrset) : (forall p d k, K p d k -> st t i p d k) -> forall p d k, clo g (F_std g) K p d k -> st t i p d k.
  Proof using W Ht He.
    intros HK p d k. induction 1 as [p d k H|p d k a q pq b k' Hc IH Hs Hq Ha HF Hb]; auto.
    eapply (st_closed g start W hash t Ht He); eauto.
  Qed.
  Lemma core_under i (K : lrset) : (forall p d k, K p d k -> st t i p d k) -> (forall p d k, st t i p (S d) k -> exists k', K p (S d) k') ->
    (st t i 0 0 0 -> exists k', K 0 0 k') -> same_core (clo g (F_std g) K) (st t i).
  Proof using W Ht He.
    intros HK H1 H2 p d. split; intros [k Hk]; [exists k; eapply clo_under; eauto|].
    apply (st_grounded g start W hash t Ht) in Hk. induction Hk as [p d k' Hk|Hk|p d q pq _ [k' IH] Hsy Hq].
    - destruct (H1 _ _ _ Hk) as [k1 H]. exists k1. apply clo_base, H.
    - destruct (H2 Hk) as [k1 H]. exists k1. apply clo_base, H.
    - destruct (st_first g start W hash t Ht He i p d k' _ (clo_under i K HK _ _ _ IH) Hsy) as (_ & a & b & kb & Ha & HF & Hb).
      exists kb. eapply clo_rule; eauto.
  Qed.

  Lemma state0 : set_eq (st t 0) (clo g (F_std g) init_set).
  Proof using W Hst Ht He Hd.
    destruct (st_canon 0 0 0 0 (a_init _ _ A)) as (I & HI & Hq). apply (set_eq_trans _ _ _ Hq). apply Hd; auto; [constructor|].
    apply (same_core_eq _ _ _ Hq).
    assert (Hc : same_core (clo g (F_std g) init_set) (st t 0)).
    { apply core_under.
      - intros p d k (-> & -> & ->). apply (a_init _ _ A).
      - intros p d k H. apply (a_zero _ _ A) in H. discriminate.
      - intros _. exists 0. repeat split. }
    intros p d. symmetry. apply Hc.
  Qed.

  Lemma trans_clo i x j p0 d0 k0 : st t i p0 d0 k0 -> trans g t i x j -> set_eq (st t j) (clo g (F_std g) (move g (st t i) x)).
  Proof using W Hst Ht He Hd Hf.
    intros H0 ((p1 & d1 & k1 & Hj) & Hb & Hp & Hfw). destruct (st_canon i _ _ _ H0) as (I & HI & Hq). destruct (st_canon j _ _ _ Hj) as (J & HJ & Hqj).
    assert (Hno : ~ exists k, st t j 0 0 k).
    { intros [k Hk]. destruct (Hp 0 _ _ Hk (wg_prod0 _ _ W)) as (p' & d' & k' & _ & pr' & Hp' & Hx).
      cbn [p_name] in Hx. apply (Hf pr' (nth_error_In _ _ Hp')). rewrite Hst. eapply nth_error_In, Hx. }
    assert (Hne : exists p d k, move g (st t i) x p d k).
    { apply (st_grounded g start W hash t Ht) in Hj. induction Hj as [p d k Hk|Hk|p d q pq _ IH Hsy Hq']; [|exfalso; eauto|exact IH].
      destruct (Hb _ _ _ Hk) as (Hsy & k' & Hk'). exists p, (S d), k', d. auto. }
    assert (Hc : same_core (clo g (F_std g) (move g (st t i) x)) (st t j)).
    { apply core_under.
      - intros p d k (d' & -> & H & Hs). auto.
      - intros p d k H. destruct (Hb _ _ _ H) as (Hsy & k' & Hk'). exists k', d. auto.
      - intros H. exfalso. eauto. }
    pose proof (move_eq g _ _ x Hq) as Hm. pose proof (clo_eq g _ _ Hm) as Hcm.
    apply (set_eq_trans _ _ _ Hqj). apply set_eq_sym. apply (set_eq_trans _ _ _ Hcm). apply Hd; auto.
    - apply lr_goto; auto. destruct Hne as (p & d & k & H). exists p, d, k. apply Hm, H.
    - apply (same_core_eq _ _ _ Hcm). apply (same_core_eq_r _ _ _ Hqj). exact Hc.
  Qed.

  (** Every item of the top state has a continuation beginning with its lookahead. *)
  Definition ahead (v : list sym) (k : nat) : Prop :=
    exists a v', nth_error (g_tokens g) k = Some a /\ derives g (v ++ [SEof]) (a :: v').
  Definition promised (l : list sym) (p d k : nat) : Prop :=
    exists v, Forall (used g) v /\ derives g [SNon start] (l ++ rest g p d ++ v) /\ ahead v k.

  Lemma promised_clo (l : list sym) (K : lrset) : (forall p d k, K p d k -> promised l p d k) ->
    forall p d k, clo g (F_std g) K p d k -> promised l p d k.
  Proof.
    intros HK p d k. induction 1 as [p d k H|p d k a q pq b k' Hc (v & Hv & Hdv & a' & v' & Ha' & Hav) Hs Hq Ha HF Hb]; auto.
    exists (rest g p (S d) ++ v). split; [apply Forall_app; split; auto using rest_used|]. split.
    - rewrite (rest_cons _ _ _ _ Hs) in Hdv. eapply derives_trans; [exact Hdv|].
      unfold rest at 2. rewrite Hq. cbn [skipn].
      change (SNon (p_name pq) :: rest g p (S d)) with ([SNon (p_name pq)] ++ rest g p (S d)). rewrite <- (app_assoc [_] (rest g p (S d))).
      apply derives_ctx. apply derives_rule. exists pq. split; [eapply nth_error_In, Hq|auto].
    - rewrite Ha in Ha'. injection Ha' as <-. destruct HF as (_ & w & HF). exists b, (w ++ v'). split; [apply Hb|].
      rewrite <- app_assoc. eapply derives_trans; [apply (derives_app g _ _ _ _ (derives_refl g (rest g p (S d))) Hav)|].
      change (a :: v') with ([a] ++ v'). rewrite app_assoc. apply (derives_app g _ _ _ _ HF). constructor.
  Qed.

  Lemma stacked_promised s ts : stacked g t s ts -> forall q s', s = q :: s' -> exists l, map (root g) (rev ts) = map Some l /\
    forall p d k, st t q p d k -> promised l p d k.
  Proof using W Hst Ht He Hd Hf.
    induction 1 as [|q0 q' s0 ts tr x Hs IH Htr Ho Hr]; intros q s' E; injection E as <- <-.
    - exists []. split; auto. intros p d k Hk. apply state0 in Hk. revert p d k Hk. apply promised_clo.
      intros p d k (-> & -> & ->). exists []. split; [constructor|]. split.
      + unfold rest. rewrite (wg_prod0 _ _ W). constructor.
      + exists SEof, []. split; [apply (token_eof g start W)|constructor].
    - destruct (IH _ _ eq_refl) as (l & El & HI). exists (l ++ [x]). split; [cbn [rev]; rewrite !map_app, El; cbn [map]; rewrite Hr; reflexivity|].
      destruct (top_item g start W Hst hash t Ht _ _ Hs) as (q1 & s1 & p0 & d0 & k0 & E1 & Hk0). injection E1 as <- <-.
      intros p d k Hk. apply (trans_clo q0 x q' _ _ _ Hk0 Htr) in Hk. revert p d k Hk. apply promised_clo.
      intros p d k (d' & -> & Hk & Hsy). destruct (HI _ _ _ Hk) as (v & Hv & Hdv & Ha). exists v. split; auto. split; auto.
      rewrite (rest_cons _ _ _ _ Hsy) in Hdv. rewrite <- app_assoc. exact Hdv.
  Qed.

  Hypothesis Hprod : all_productive g.

  Lemma ahead_eof v : Forall (used g) v -> ahead v 0 -> v = [].
  Proof using W He Heof.
    intros Hv (a & v' & Ha & Hdv). pose proof (token_eof g start W) as E0. unfold get_token in E0. rewrite E0 in Ha. injection Ha as <-.
    destruct (derives_split g _ _ Hdv v [SEof] eq_refl) as (m1 & m2 & E & H1 & _). destruct v as [|x v]; auto. exfalso.
    pose proof (derives_nonempty g _ _ He H1 ltac:(discriminate)) as Hne. destruct m1 as [|y m1]; [congruence|]. injection E as <- _.
    pose proof (derives_used g _ _ H1 Hv) as Hu. inversion Hu as [|? ? (p & Hp & Hx) _]; subst. exact (Heof p Hp Hx).
  Qed.
  Lemma ahead_tok v k : ahead v k -> k <> 0 -> exists a v', nth_error (g_tokens g) k = Some a /\ derives g v (a :: v').
  Proof using W He Heof.
    intros (a & v' & Ha & Hdv) Hk. destruct (derives_split g _ _ Hdv v [SEof] eq_refl) as (m1 & m2 & E & H1 & H2).
    assert (m2 = [SEof]) as ->. { eapply derives_terminals_refl; [exact H2|]. constructor; [intros n; discriminate|constructor]. }
    destruct m1 as [|y m1].
    - exfalso. injection E as -> _. apply Hk. pose proof (nth_tok _ _ W Heof _ _ Ha) as Htk. apply tok_idx in Htk.
      pose proof (token_idx_eof g start W). congruence.
    - injection E as <- _. eauto.
  Qed.

  (** Every token with an entry in the top state can follow. *)
  Lemma entry_follows tokens w c q s k a : ended tokens w -> reached g t tokens c -> ps_stack c = q :: s ->
    tbl_get (t_action t) q k = Some a -> can_follow g start (firstn (ps_i c) w) k.
  Proof using W Hst Ht He Heof Hf Hd Hprod.
    intros Hend Hc Es Ha.
    assert (G : forall p d, complete g p d -> st t q p d k -> can_follow g start (firstn (ps_i c) w) k).
    { intros p d (pr & Hp & ->) Hk. destruct (reached_inv g start W Hst hash t Ht Heof tokens w c Hend Hc) as (ts & Hs & _ & _ & _ & Hy). rewrite Es in Hs.
      destruct (stacked_promised _ _ Hs _ _ eq_refl) as (l & El & HP). destruct (HP _ _ _ Hk) as (v & Hv & Hdv & Hah).
      assert (Er : rest g p (length (p_syms pr)) = []) by (unfold rest; rewrite Hp; apply skipn_all). rewrite Er in Hdv. cbn [app] in Hdv.
      pose proof (stacked_ok g t _ _ Hs) as Hok.
      assert (Hdl : derives g l (flat_map yield (rev ts))) by (apply forest_derives'; auto; apply Forall_rev; auto).
      assert (Htl : terminals (flat_map yield (rev ts))) by (apply (forest_terminals g); apply Forall_rev; auto).
      unfold can_follow. destruct (Nat.eqb_spec k 0) as [->|Hne].
      - apply ahead_eof in Hah; auto. subst v. rewrite app_nil_r in Hdv. exists (flat_map yield (rev ts)). split; auto. split; auto.
        eapply derives_trans; eauto.
      - destruct (ahead_tok _ _ Hah Hne) as (b & v' & Hb & Hdb). pose proof (derives_used g _ _ Hdb Hv) as Hu. inversion Hu as [|? ? Hub Huv]; subst.
        destruct (productive_all g Hprod v' Huv) as (m & Hm & Hum & Hdm). destruct (used_symbols g start W m Hum) as (um & Hsm).
        exists um. exists (flat_map yield (rev ts) ++ b :: m). split; [|split].
        + unfold symbols in *. rewrite <- app_assoc. rewrite !map_app, Hy. cbn [map app]. rewrite Hb, Hsm. reflexivity.
        + apply Forall_app. split; auto. constructor; auto.
          destruct (make_tables_built _ _ _ _ W Ht) as (lr0 & mm & B).
          destruct (st_lr g start W hash t lr0 mm q _ _ k B Hk) as (I & HI & HkI & _).
          destruct (lr_lookahead g start W He I HI _ _ _ HkI) as (b' & Hb' & Htb). congruence.
        + eapply derives_trans; [exact Hdv|]. apply derives_app; auto. eapply derives_trans; [exact Hdb|].
          apply (derives_app g [b] [b] v' m); auto. constructor. }
    destruct a as [j|p|].
    - eapply (shift_follows g start W Hst hash t Ht Heof Hf); eauto.
    - apply (a_reduce _ _ A) in Ha as (_ & d & Hcm & Hk). eauto.
    - apply (a_accept _ _ A) in Ha as (-> & d & Hcm & Hk). eauto.
  Qed.

  Hypothesis Hcl : closed g t.
  Lemma exact_list tokens w r : ended tokens w -> parse_report g t tokens = Some r ->
    forall k, (exists l, rp_valid r = Some l /\ In k l) <-> can_follow g start (firstn (rp_pos r) w) k.
  Proof using W Hst Ht He Heof Hf Hd Hprod Hcl.
    intros Hend H k. apply reported in H as (c & q & s & Hc & E & Es & ->). cbn [rp_valid rp_pos]. rewrite tbl_valid_get. split.
    - intros [a Ha]. eapply entry_follows; eauto.
    - intros Hk. eapply (fresh_listed g start W Hst hash t Ht He Heof Hf Hcl); eauto.
      destruct (reached_pred g t tokens c Hc) as [(a & tl & Et & ->)|(c0 & Hc0 & E0)]; [left; auto|]. right.
      exists c0. split; auto. split; auto. destruct (step_pos _ _ _ _ _ E0) as [Ei|Ei]; auto. exfalso.
      apply (invalid_wrong g start W Hst hash t Ht He Heof Hf Hcl tokens w c Hend Hc E).
      assert (Hred : ps_a c = ps_a c0 /\ exists q0 s0 a0, ps_stack c0 = q0 :: s0 /\ tbl_get (t_action t) q0 (ps_a c0) = Some a0).
      { clear -E0 Ei. unfold parse_step in E0. destruct (ps_stack c0) as [|q0 s0]; [discriminate|].
        destruct (tbl_get (t_action t) q0 (ps_a c0)) as [[j|p|]|] eqn:Ea; try discriminate.
        - unfold next_token in E0. injection E0 as <-. cbn [ps_i] in Ei. lia.
        - split; [|eauto]. destruct (get_production g p); [|discriminate]. destruct (_ <? _); [discriminate|].
          destruct (skipn _ _); [discriminate|]. destruct (tbl_get (t_goto t) _ _); [|discriminate]. injection E0 as <-. reflexivity. }
      destruct Hred as (Ea & q0 & s0 & a0 & Es0 & Ha0). rewrite Ea, Ei. eapply entry_follows; eauto.
  Qed.
End Canon.
