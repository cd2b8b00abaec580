(** LL(1) grammars: every LR(1) state has one kernel item. *)
From Verif Require Import Base Grammar GrammarSpec GrammarProofs First FirstProofs Item ItemSpec ItemProofs ItemPlain Table TableSpec TableProofs TreeFacts LlSpec.

(** [lead g n x y]: replacing the first symbol [n] times leads from [x] to the terminal [y]. *)
Inductive lead (g : grammar) : nat -> sym -> sym -> Prop :=
| lead_0 y : terminal y -> lead g 0 y y
| lead_S n q pq z l y : nth_error (g_prods g) q = Some pq -> p_syms pq = z :: l -> lead g n z y -> lead g (S n) (SNon (p_name pq)) y.
(** [chain g n p d q e]: [n] steps of the closure lead from the item [(p, d)] to [(q, e)]. *)
Inductive chain (g : grammar) : nat -> nat -> nat -> nat -> nat -> Prop :=
| chain_0 p d : chain g 0 p d p d
| chain_S n p d q pq r e : sym_at g p d (SNon (p_name pq)) -> nth_error (g_prods g) q = Some pq -> chain g n q 0 r e -> chain g (S n) p d r e.

Lemma chain_snoc g n p d q e r pr : chain g n p d q e -> sym_at g q e (SNon (p_name pr)) -> nth_error (g_prods g) r = Some pr -> chain g (S n) p d r 0.
Proof. induction 1; intros Hs Hr; eapply chain_S; eauto. constructor. Qed.

Section Ll.
  Variable g : grammar.
  Hypothesis He : eps_free g.
  Hypothesis Hll : ll1 g.
  Hypothesis Hu : useful g.

  Lemma lead_terminal n x y : lead g n x y -> terminal y.
  Proof. induction 1; auto. Qed.
  Lemma lead_lms n x y : lead g n x y -> lms g x y.
  Proof. induction 1 as [|n q pq z l y Hq E _ IH]; [constructor|]. eapply lms_step; [|exact IH]. exists pq. eauto using nth_error_In. Qed.
  Lemma lms_lead x y : lms g x y -> terminal y -> exists n, lead g n x y.
  Proof.
    induction 1 as [x|A x b y (q & Hq & <- & Eb) _ IH]; intros Ht; [exists 0; constructor; auto|].
    destruct (IH Ht) as [n Hn]. apply In_nth_error in Hq as [i Hi]. exists (S n). eapply lead_S; eauto.
  Qed.
  Lemma lead_begins n x y l : lead g n x y -> begins g (x :: l) y.
  Proof using He. intros H. pose proof (lead_terminal _ _ _ H). split; auto. apply (lms_derives_iff g He); auto. eapply lead_lms; eauto. Qed.

  Lemma used_rule q pq : used g (SNon (p_name pq)) -> nth_error (g_prods g) q = Some pq -> reachable g q.
  Proof. intros (p & pr & Hr & Hp & Hi) Hq. eapply reach_next; eauto. Qed.
  Lemma used_sym q pq x : reachable g q -> nth_error (g_prods g) q = Some pq -> In x (p_syms pq) -> used g x.
  Proof. intros. exists q, pq. auto. Qed.
  Lemma sym_used p d x : reachable g p -> sym_at g p d x -> used g x.
  Proof. intros H (pr & Hp & Hx). eapply used_sym; eauto using nth_error_In. Qed.

  (** The rule is determined by the terminal, and so is the number of steps. *)
  Lemma lead_rule n m q q' pq pq' z z' l l' y : used g (SNon (p_name pq)) -> p_name pq = p_name pq' ->
    nth_error (g_prods g) q = Some pq -> nth_error (g_prods g) q' = Some pq' -> p_syms pq = z :: l -> p_syms pq' = z' :: l' ->
    lead g n z y -> lead g m z' y -> q = q'.
  Proof using He Hll.
    intros Hus En Hq Hq' E E' H H'. apply (Hll q q' pq pq' y); auto.
    - eapply used_rule; eauto.
    - apply (used_rule q' pq'); auto. rewrite <- En. auto.
    - rewrite E. eapply lead_begins; eauto.
    - rewrite E'. eapply lead_begins; eauto.
  Qed.
  Lemma lead_fun n x y : lead g n x y -> used g x -> forall m, lead g m x y -> n = m.
  Proof using He Hll.
    induction 1 as [y Ht|n q pq z l y Hq E H IH]; intros Hus m Hm.
    - inversion Hm as [|m' q pq z l y' Hq E H]; subst; auto. destruct (Ht _ eq_refl).
    - inversion Hm as [y' Ht|m' q' pq' z' l' y' Hq' E' H' E1 En]; subst; [destruct (Ht _ eq_refl)|].
      assert (q = q') as <- by (eapply (lead_rule _ _ q q' pq pq'); eauto). rewrite Hq in Hq'. injection Hq' as <-. rewrite E in E'. injection E' as <- <-.
      f_equal. apply IH; auto. eapply used_sym; [eapply used_rule; eauto|eauto|rewrite E; left; auto].
  Qed.

  Lemma used_lead x : used g x -> exists n y, lead g n x y.
  Proof using He Hu.
    intros H. destruct (Hu x H) as (l & Ht & Hd). destruct (derives_head _ _ _ He Hd _ _ eq_refl) as (y & w & -> & Hl).
    inversion Ht; subst. destruct (lms_lead _ _ Hl) as [n Hn]; auto. eauto.
  Qed.
  Lemma used_non A : used g (SNon A) -> has_rule g A.
  Proof using He Hu.
    intros H. destruct (used_lead _ H) as (n & y & Hn). inversion Hn as [y' Ht|n' q pq z l y' Hq E H']; subst; [destruct (Ht _ eq_refl)|].
    exists pq. eauto using nth_error_In.
  Qed.

  Lemma lms_used x y : lms g x y -> used g x -> used g y.
  Proof.
    induction 1 as [|A y b z (q & Hq & <- & Eb) _ IH]; auto. intros Hus. apply IH. apply In_nth_error in Hq as [i Hi].
    eapply used_sym; [eapply used_rule; eauto|eauto|rewrite Eb; left; auto].
  Qed.
  Lemma lms_add x y : lms g x y -> forall n z, lead g n y z -> exists m, lead g (m + n) x z.
  Proof.
    induction 1 as [x|A x b y (q & Hq & <- & Eb) _ IH]; intros n z Hn; [exists 0; auto|].
    destruct (IH n z Hn) as [m Hm]. apply In_nth_error in Hq as [i Hi]. exists (S m). eapply lead_S; eauto.
  Qed.
  Lemma no_left A : used g (SNon A) -> ~ left_recursive g A.
  Proof using He Hll Hu.
    intros Hus HA. apply (left_recursive_lms g He) in HA as (y & b & (q & Hq & <- & Eb) & Hl).
    destruct (used_lead _ Hus) as (n & z & Hn). destruct (lms_add _ _ Hl n z Hn) as [m Hm]. apply In_nth_error in Hq as [i Hi].
    pose proof (lead_fun _ _ _ Hn Hus (S (m + n)) ltac:(eapply lead_S; eauto)). lia.
  Qed.

  (** Chains of the closure. *)
  Lemma chain_reach n p d q e : chain g n p d q e -> reachable g p -> reachable g q.
  Proof. induction 1 as [|n p d q pq r e Hs Hq _ IH]; auto. intros Hr. apply IH. eapply used_rule; eauto. eapply sym_used; eauto. Qed.
  Lemma chain_lead n p d q e : chain g n p d q e -> forall k x y, sym_at g q e x -> lead g k x y -> exists x0, sym_at g p d x0 /\ lead g (n + k) x0 y.
  Proof.
    induction 1 as [|n p d q pq r e Hs Hq H IH]; intros k x y Hx Hl; [eauto|].
    destruct (IH k x y Hx Hl) as (x0 & (pr & Hp & Hz) & Hl0). rewrite Hq in Hp. injection Hp as <-.
    destruct (p_syms pq) as [|z l] eqn:E; [discriminate|]. injection Hz as ->. exists (SNon (p_name pq)). split; auto. cbn. eapply lead_S; eauto.
  Qed.
  Lemma sym_fun p d x y : sym_at g p d x -> sym_at g p d y -> x = y.
  Proof. intros (pr & Hp & Hx) (pr' & Hp' & Hy). congruence. Qed.
  Lemma chain_end n p d q e : chain g n p d q e -> reachable g p -> forall q' e' k x x' y, chain g n p d q' e' -> sym_at g q e x -> sym_at g q' e' x' ->
    lead g k x y -> lead g k x' y -> (q, e) = (q', e').
  Proof using He Hll.
    induction 1 as [p d|n p d q pq r e Hs Hq H IH]; intros Hr q' e' k x x' y H' Hx Hx' Hl Hl'; inversion H' as [|n' p' d' q1 pq1 r' e1 Hs1 Hq1 H1]; subst; auto.
    pose proof (sym_fun _ _ _ _ Hs Hs1) as En. injection En as En. assert (Hus : used g (SNon (p_name pq))) by (eapply sym_used; eauto).
    destruct (chain_lead _ _ _ _ _ H _ _ _ Hx Hl) as (z & (pr & Hp & Hz) & Hlz). destruct (chain_lead _ _ _ _ _ H1 _ _ _ Hx' Hl') as (z' & (pr' & Hp' & Hz') & Hlz').
    rewrite Hq in Hp. injection Hp as <-. rewrite Hq1 in Hp'. injection Hp' as <-.
    destruct (p_syms pq) as [|u l] eqn:E; [discriminate|]. injection Hz as ->. destruct (p_syms pq1) as [|u' l'] eqn:E'; [discriminate|]. injection Hz' as ->.
    assert (q = q1) as <- by (eapply (lead_rule _ _ q q1 pq pq1); eauto).
    eapply IH; eauto. eapply used_rule; eauto.
  Qed.
  Lemma chain_unique n m p d q e q' e' x : reachable g p -> chain g n p d q e -> chain g m p d q' e' -> sym_at g q e x -> sym_at g q' e' x -> (q, e) = (q', e').
  Proof using He Hll Hu.
    intros Hr H H' Hx Hx'. destruct (used_lead x) as (k & y & Hl); [eapply sym_used; [eapply chain_reach; eauto|eauto]|].
    destruct (chain_lead _ _ _ _ _ H _ _ _ Hx Hl) as (x0 & H0 & L0). destruct (chain_lead _ _ _ _ _ H' _ _ _ Hx' Hl) as (x1 & H1 & L1).
    rewrite (sym_fun _ _ _ _ H1 H0) in L1. assert (n + k = m + k) by (eapply lead_fun; eauto; eapply sym_used; eauto). assert (n = m) as <- by lia.
    eapply chain_end; eauto.
  Qed.
  Lemma chain_complete n p d q e : chain g n p d q e -> complete g q e -> (q, e) = (p, d).
  Proof using He.
    assert (Hz : forall q, ~ complete g q 0).
    { intros q' (pr & Hp & E). destruct (He pr (nth_error_In _ _ Hp)) as [Hn _]. destruct (p_syms pr); [auto|discriminate]. }
    induction 1 as [|n p d q pq r e Hs Hq H IH]; auto. intros Hc. pose proof (IH Hc) as E. injection E as -> ->. destruct (Hz q Hc).
  Qed.

  (** Every state is the closure of one item, lookaheads aside. *)
  Definition one_kernel (I : lrset) : Prop := exists p0 d0, (exists k, I p0 d0 k) /\ reachable g p0 /\ forall p d k, I p d k -> exists n, chain g n p0 d0 p d.
  Lemma clo_chain F (K : lrset) p0 d0 : (forall p d k, K p d k -> p = p0 /\ d = d0) -> forall p d k, clo g F K p d k -> exists n, chain g n p0 d0 p d.
  Proof.
    intros HK. induction 1 as [p d k H|p d k a q pq b k' _ [n IH] Hs Hq _ _ _].
    - destruct (HK _ _ _ H) as [-> ->]. exists 0. constructor.
    - exists (S n). eapply chain_snoc; eauto.
  Qed.
  Lemma lr_kernel F I : lr_state g F I -> one_kernel I.
  Proof using He Hll Hu.
    induction 1 as [|I x _ (p0 & d0 & _ & Hr & HI) (p & d & k & Hm)].
    - exists 0, 0. split; [exists 0; apply clo_base; split; auto|]. split; [constructor|]. apply clo_chain. intros p d k (-> & -> & _). auto.
    - destruct Hm as (d' & -> & Hk & Hx). exists p, (S d'). destruct (HI _ _ _ Hk) as [n Hn].
      split; [exists k; apply clo_base; exists d'; auto|]. split; [eapply chain_reach; eauto|].
      apply clo_chain. intros q e k' (e' & -> & Hk' & Hx'). destruct (HI _ _ _ Hk') as [m Hm].
      pose proof (chain_unique _ _ _ _ _ _ _ _ _ Hr Hn Hm Hx Hx') as E. injection E as <- <-. auto.
  Qed.

  Lemma lalr_kernel F I : lr_state g F I -> one_kernel (lalr_of g F I).
  Proof using He Hll Hu.
    intros H. destruct (lr_kernel _ _ H) as (p0 & d0 & [k0 H0] & Hr & HI). exists p0, d0. split; [exists k0, I; split; auto; split; auto; intros a b; reflexivity|].
    split; auto. intros p d k (I' & _ & Hc & Hk).
    destruct (proj2 (Hc p d) (ex_intro _ k Hk)) as [k' Hk']. eauto.
  Qed.
  Lemma kernel_wants F J p d p' d' k : one_kernel J -> wants g F J p d k -> wants g F J p' d' k -> (p, d) = (p', d').
  Proof using He Hll Hu.
    intros (p0 & d0 & _ & Hr & HJ).
    assert (G : forall p d k p' d', complete g p d -> J p d k -> (exists k', J p' d' k') -> (p, d) = (p', d')).
    { intros q e i q' e' Hc Hk [i' Hk']. destruct (HJ _ _ _ Hk) as [n Hn]. destruct (HJ _ _ _ Hk') as [m Hm].
      pose proof (chain_complete _ _ _ _ _ Hn Hc) as E. injection E as -> ->. inversion Hm as [|m' p1 d1 q1 pq r e1 Hs]; subst; auto.
      destruct Hc as (pr & Hp & ->), Hs as (pr' & Hp' & Hs). rewrite Hp in Hp'. injection Hp' as <-. apply nth_error_lt in Hs. lia. }
    intros [[C1 K1]|(x & X1 & T1 & K1 & J1 & _)] [[C2 K2]|(x' & X2 & T2 & K2 & J2 & _)].
    - eapply G; eauto.
    - eapply G; eauto.
    - symmetry. eapply G; eauto.
    - assert (x = x') as <- by (destruct K1 as [K1 _], K2 as [K2 _]; congruence).
      destruct J1 as [k1 J1], J2 as [k2 J2]. destruct (HJ _ _ _ J1) as [n Hn]. destruct (HJ _ _ _ J2) as [m Hm].
      eapply chain_unique; eauto.
  Qed.
  Lemma ll_computable : computable g.
  Proof using He Hll Hu.
    intros p pr d B Hr Hp Hd. assert (Hus : used g (SNon B)) by (eapply used_sym; eauto using nth_error_In).
    split; [apply used_non; auto|]. intros x Hx A Hl. assert (HA : used g (SNon A)) by (eapply lms_used; eauto; eapply used_sym; eauto using nth_error_In).
    split; [apply used_non|apply no_left]; auto.
  Qed.

  (** The transitions of kernel items. *)
  Variable start : str.
  Hypothesis W : wf_grammar g start.
  Lemma lr_next I : lr_state g (F_std g) I -> forall p d k q pq, I p d k -> sym_at g p d (SNon (p_name pq)) -> nth_error (g_prods g) q = Some pq -> exists k', I q 0 k'.
  Proof using He Hll Hu W.
    intros HI p d k q pq Hk Hs Hq. pose proof (computable_good g _ W He ll_computable) as HG.
    destruct (lr_std_code g _ W He HG I HI) as (J & HJ & E). apply E in Hk.
    destruct (HG J HJ _ _ _ Hk) as [_ H1]. destruct (H1 _ Hs) as (_ & a & Ha & s & Es & Hin').
    destruct (first_at_nonempty g _ W He _ _ _ _ _ Ha Es) as [y Hy].
    destruct (proj1 (get_token_idx_In g y) (Hin' y Hy)) as [k' Hk']. apply tok_idx in Hk'.
    exists k'. apply E. apply (lr_closed g _ HJ).
    refine (clo_rule g (F_code g) J p d k a q pq y k' (clo_base _ _ _ _ _ _ Hk) Hs Hq Ha (ex_intro _ s (conj Es Hy)) Hk').
  Qed.
  Lemma lr_chain I : lr_state g (F_std g) I -> forall n p d q e, chain g n p d q e -> (exists k, I p d k) -> exists k, I q e k.
  Proof using He Hll Hu W. intros HI n p d q e. induction 1 as [|n p d q pq r e Hs Hq _ IH]; auto. intros [k Hk]. apply IH. eapply lr_next; eauto. Qed.
  Lemma chain_inner n p d q e : chain g n p d q (S e) -> (p, d) = (q, S e).
  Proof.
    intros H. remember (S e) as e' eqn:E. revert E. induction H as [|n p d q pq r e' Hs Hq _ IH]; auto. intros E. pose proof (IH E) as E'. rewrite E in E'. discriminate.
  Qed.
  Lemma kernel_core I J p d : lr_state g (F_std g) I -> lr_state g (F_std g) J -> (exists k, I p (S d) k) -> (exists k, J p (S d) k) -> same_core I J.
  Proof using He Hll Hu W.
    assert (G : forall I, lr_state g (F_std g) I -> (exists k, I p (S d) k) -> forall q e, (exists k, I q e k) <-> exists n, chain g n p (S d) q e).
    { intros K HK Hp q e. destruct (lr_kernel _ _ HK) as (p0 & d0 & H0 & _ & Hc). destruct Hp as [k Hk]. destruct (Hc _ _ _ Hk) as [n Hn].
      pose proof (chain_inner _ _ _ _ _ Hn) as E. injection E as -> ->. split; [intros [k' Hk']; eauto|]. intros [m Hm]. eapply lr_chain; eauto. }
    intros HI HJ H1 H2 q e. rewrite (G I HI H1 q e), (G J HJ H2 q e). reflexivity.
  Qed.
  Lemma lr_inner I p d k : lr_state g (F_std g) I -> I p (S d) k -> exists I0 x, lr_state g (F_std g) I0 /\ I = clo g (F_std g) (move g I0 x) /\ I0 p d k /\ sym_at g p d x.
  Proof.
    assert (C : forall K p d k, clo g (F_std g) K p (S d) k -> K p (S d) k).
    { intros K q e l H. remember (S e) as e' eqn:E. revert E. induction H; auto. discriminate. }
    intros [|I0 x HI0 Hne] Hk; apply C in Hk.
    - destruct Hk as (_ & Hk & _). discriminate.
    - destruct Hk as (d' & E & Hk & Hx). injection E as <-. eauto 10.
  Qed.
  Lemma inner_found I p d k x : lr_state g (F_std g) I -> lalr_of g (F_std g) I p (S d) k -> sym_at g p (S d) x -> found g (F_std g) (lalr_of g (F_std g) I) x.
  Proof using He Hll Hu W.
    intros HI (I1 & HI1 & Hc1 & Hk) Hx. set (I2 := clo g (F_std g) (move g I1 x)).
    assert (HI2 : lr_state g (F_std g) I2) by (apply lr_goto; auto; exists p, (S (S d)), k, (S d); auto).
    assert (H2 : exists k, I2 p (S (S d)) k) by (exists k; apply clo_base; exists (S d); auto).
    exists I2. split; auto. right. intros q e l. split.
    - intros H. apply clo_single in H as (p0 & d0 & k0 & (d' & -> & (I3 & HI3 & Hc3 & H3) & Hx3) & H).
      assert (Hc13 : same_core I1 I3) by (intros a b; rewrite <- (Hc1 a b); apply Hc3).
      assert (Hin : exists k, I3 p (S d) k) by (apply Hc13; eauto). destruct Hin as [k3 Hk3].
      assert (Hst : lr_state g (F_std g) (clo g (F_std g) (move g I3 x))) by (apply lr_goto; auto; exists p, (S (S d)), k3, (S d); auto).
      exists (clo g (F_std g) (move g I3 x)). split; auto. split.
      + apply (kernel_core _ _ p (S d)); auto. exists k3. apply clo_base. exists (S d). auto.
      + eapply clo_mono; [|exact H]. intros a b c (-> & -> & ->). exists d'. auto.
    - intros (I3 & HI3 & Hc3 & H3). assert (Hin : exists k, I3 p (S (S d)) k) by (apply Hc3; auto). destruct Hin as [k3 Hk3].
      destruct (lr_inner _ _ _ _ HI3 Hk3) as (I4 & x' & HI4 & -> & Hk4 & Hx4). pose proof (sym_fun _ _ _ _ Hx4 Hx) as ->.
      eapply clo_mono; [|exact H3]. intros a b c (b' & -> & H4 & Hs4). exists b'. split; auto. split; auto. exists I4. split; auto. split; auto.
      intros u v. rewrite (Hc1 u v). apply (kernel_core _ _ p d); eauto.
  Qed.

  (** Trees are determined by what they begin with. *)
  Lemma forest_begins p pr ts r : nth_error (g_prods g) p = Some pr -> Forall (tree_ok g) ts -> map (root g) ts = map Some (p_syms pr) ->
    exists y w, flat_map yield ts ++ r = y :: w /\ begins g (p_syms pr) y.
  Proof using He.
    intros Hp Ho Hm. pose proof (forest_derives' g ts _ Ho Hm) as Hd. pose proof (forest_terminals g ts Ho) as Ht.
    destruct (p_syms pr) as [|x l] eqn:E; [destruct (proj1 (He pr (nth_error_In _ _ Hp)) E)|].
    destruct (derives_head _ _ _ He Hd _ _ eq_refl) as (y & w & Ey & _). rewrite Ey in *. exists y, (w ++ r). split; auto. split; [inversion Ht; auto|eauto].
  Qed.
  Lemma ll_tree tr : forall x tr' r r', tree_ok g tr -> tree_ok g tr' -> root g tr = Some x -> root g tr' = Some x -> used g x ->
    yield tr ++ r = yield tr' ++ r' -> tr = tr'.
  Proof using He Hll.
    induction tr as [y|p ts IH] using tree_ind'; intros x tr' r r' Ho Ho' Hr Hr' Hus E.
    - injection Hr as ->. apply tree_ok_leaf in Ho. destruct tr' as [y|q ts']; [injection Hr' as ->; auto|].
      cbn [root] in Hr'. destruct (nth_error (g_prods g) q); [|discriminate]. injection Hr' as <-. destruct (Ho _ eq_refl).
    - apply tree_ok_node in Ho as (pr & Hp & Hts & Hm). cbn [root] in Hr. rewrite Hp in Hr. injection Hr as <-.
      destruct tr' as [y|q ts']; [injection Hr' as ->; apply tree_ok_leaf in Ho'; destruct (Ho' _ eq_refl)|].
      apply tree_ok_node in Ho' as (pq & Hq & Hts' & Hm'). cbn [root] in Hr'. rewrite Hq in Hr'. injection Hr' as Hn. cbn [yield] in E.
      assert (Hrp : reachable g p) by (eapply used_rule; eauto).
      assert (p = q) as <-.
      { destruct (forest_begins p pr ts r Hp Hts Hm) as (y & w & Ey & By). destruct (forest_begins q pq ts' r' Hq Hts' Hm') as (y' & w' & Ey' & By').
        rewrite Ey, Ey' in E. injection E as <- <-. apply (Hll p q pr pq y); auto. apply (used_rule q pq); auto. rewrite Hn. auto. }
      rewrite Hp in Hq. injection Hq as <-. f_equal. assert (Hl : forall x, In x (p_syms pr) -> used g x) by (intros; eapply used_sym; eauto).
      clear Hp Hrp Hn Hus. revert ts' Hts' Hm' E IH Hts Hm Hl. generalize (p_syms pr) as l. revert r r'.
      induction ts as [|tr ts IHl]; intros r r' l ts' Hts' Hm' E IH Hts Hm Hl.
      + destruct l; [|discriminate]. destruct ts'; [auto|discriminate].
      + destruct l as [|x l]; [discriminate|]. destruct ts' as [|tr' ts']; [discriminate|]. cbn [map flat_map] in *. injection Hm as Hx Hm. injection Hm' as Hx' Hm'.
        inversion IH as [|? ? I1 I2]; inversion Hts; inversion Hts'; subst. rewrite <- !app_assoc in E.
        assert (tr = tr') as <- by (eapply (I1 x); eauto using in_eq). apply app_inv_head in E. f_equal. eapply IHl; eauto using in_cons.
  Qed.
End Ll.
