(** Proofs for C78: what meets after a rule that begins and ends with its own name. *)
From Verif Require Import Base Grammar GrammarSpec GrammarProofs GrammarCheck First FirstProofs Item ItemSpec ItemProofs ItemPlain
  Table TableSpec MergeProofs TableProofs TableFacts Witness PropsGrammar PropsItem PropsTable Parse ParseSpec ParseCheck TreeFacts Auto ParseProofs
  ParseTerm ParseCycle ParseComplete PropsParse ParseExact ReportSpec PropsReport CommonSpec PropsCommon OperatorSpec.

Lemma clo_lms g F (K : lrset) : (forall p d k, K p d k -> d <> 0) -> forall q d k, clo g F K q d k -> K q d k \/
  d = 0 /\ exists a b c y pq, K a b c /\ sym_at g a b y /\ nth_error (g_prods g) q = Some pq /\ lms g y (SNon (p_name pq)).
Proof.
  intros HK q d k. induction 1 as [p d k H|p d k a q pq b k' Hc IH Hs Hq Ha HF Ht]; [auto|]. right. split; auto.
  destruct IH as [H|(-> & u & v & c & y & pp & Hu & Hy & Hp & Hl)].
  - exists p, d, k, (SNon (p_name pq)), pq. split; auto. split; auto. split; auto. constructor.
  - exists u, v, c, y, pq. split; auto. split; auto. split; auto. eapply lms_trans; [exact Hl|].
    destruct Hs as (pp' & Hp' & Hs). rewrite Hp in Hp'. injection Hp' as <-. destruct (p_syms pp) as [|z r] eqn:E; [discriminate|]. injection Hs as ->.
    eapply lms_step; [|constructor]. exists pp. split; [eauto using nth_error_In|]. split; [reflexivity|exact E].
Qed.

(** A rule in a parse is the root of a part of it. *)
Lemma inner_node g t p : forall tr i j, moves g t i tr j -> tree_ok g tr -> In p (postorder tr) -> exists i' ts l j', moves_all g t i' ts l /\ moves g t i' (Node p ts) j' /\ tree_ok g (Node p ts).
Proof.
  induction tr as [y|q ts IH] using tree_ind'; intros i j Hm Ho Hin; [destruct Hin|]. pose proof Ho as Ho'. apply tree_ok_node in Ho as (pr & Hp & Hts & Hr).
  pose proof Hm as Hm'. inversion Hm as [|i' p' pr' ts' l' j' Hp' Hall Hgo]; subst. cbn [postorder] in Hin. apply in_app_or in Hin as [Hin|[->|[]]]; [|eauto 10].
  clear Hr Hm Hm' Ho' Hgo. revert i Hall. induction ts as [|tr ts IHl]; intros i Hall; [destruct Hin|]. inversion Hall as [|i1 tr1 j1 ts1 k1 H1 H2]; subst. inversion IH as [|? ? I1 I2]; subst.
  inversion Hts as [|? ? O1 O2]; subst. cbn [flat_map] in Hin. apply in_app_or in Hin as [Hin|Hin]; [exact (I1 _ _ H1 O1 Hin)|eauto].
Qed.

Section Operator.
  Variables (ast : list aprod) (g : grammar) (start : str).
  Hypothesis Hg : grammar_from_ast ast = Ok g.
  Hypothesis W : wf_grammar g start.
  Hypothesis Hst : g_start g = aug_name start.
  Hypothesis He : eps_free g.
  Variables (hash : list item -> N) (t : tables).
  Hypothesis Ht : make_tables hash g = Ok t.

  Let A : auto g t := tables_auto g _ W Hst hash t Ht.
  Let Snext := st_next g start W He hash t Ht.

  Lemma lms_st y z : lms g y z -> forall i p d k, st t i p d k -> sym_at g p d y -> exists p' d' k', st t i p' d' k' /\ sym_at g p' d' z.
  Proof using W He Ht.
    induction 1 as [|B y l z (r & Hr & <- & El) _ IH]; [eauto|]. intros i p d k Hk Hx. apply In_nth_error in Hr as [n Hn].
    destruct (st_next g start W He hash t Ht _ _ _ _ n r Hk Hx Hn) as [k' Hk']. apply (IH i n 0 k'); auto. exists r. rewrite El. auto.
  Qed.
  Lemma lms_rule i p d k y q pq : st t i p d k -> sym_at g p d y -> lms g y (SNon (p_name pq)) -> nth_error (g_prods g) q = Some pq -> exists k', st t i q 0 k'.
  Proof using W He Ht.
    intros Hk Hy Hl Hq. destruct (lms_st _ _ Hl _ _ _ _ Hk Hy) as (p' & d' & k' & Hk' & Hs). eapply st_next; eauto.
  Qed.

  (** An item with the dot in front comes from one with the dot inside. *)
  Lemma st_kernel i a b c q k pq : st t i a (S b) c -> st t i q 0 k -> nth_error (g_prods g) q = Some pq ->
    exists u v l y, st t i u (S v) l /\ sym_at g u (S v) y /\ lms g y (SNon (p_name pq)).
  Proof using W Ht.
    intros Ha Hq Hp. destruct (make_tables_built _ _ _ _ W Ht) as (lr0 & m & B). destruct (st_lr g _ W hash t _ _ _ _ _ _ B Hq) as (I & HI & Hk & Hi & Hc).
    destruct (Hc _ _ _ Ha) as [c' Hc']. inversion HI as [E|J x HJ Hne E]; subst I.
    - apply clo_kernel in Hc' as [(_ & C & _)|[C _]]; discriminate.
    - apply clo_lms in Hk as [(d' & C & _)|(_ & u & v & l & y & pq' & Hu & Hy & Hp' & Hl)]; [discriminate| |intros p d l (d' & -> & _); discriminate].
      rewrite Hp in Hp'. injection Hp' as <-. destruct Hu as (v' & -> & Hu). exists u, v', l, y. split; [|auto]. apply Hi, clo_base. exists v'. auto.
  Qed.

  (** Lookaheads are terminals, under their first index. *)
  Lemma st_tok i p d k : st t i p d k -> exists a, tok g k a /\ terminal a.
  Proof using W He Ht.
    intros H. destruct (make_tables_built _ _ _ _ W Ht) as (lr0 & m & B). destruct (st_lr g _ W hash t _ _ _ _ _ _ B H) as (I & HI & Hk & _).
    destruct (lr_lookahead g _ W He I HI _ _ _ Hk) as (a & Ha & Hta). exists a. split; auto.
    assert (G : forall I, lr g I -> forall p d k, I p d k -> exists a, tok g k a).
    { assert (Gc : forall K : lrset, (forall p d k, K p d k -> exists a, tok g k a) -> forall p d k, clo g (F_code g) K p d k -> exists a, tok g k a).
      { intros K HK p1 d1 k1. induction 1; eauto. }
      induction 1 as [|J x HJ IH Hne]; apply Gc.
      - intros p1 d1 k1 (-> & -> & ->). exists SEof. split; [apply (token_eof _ _ W)|intros j Hj; lia].
      - intros p1 d1 k1 (d' & -> & Hi & _). eauto. }
    destruct (G I HI _ _ _ Hk) as [a' Ha']. replace a with a'; auto. destruct Ha' as [Ha' _]. congruence.
  Qed.

  (** The closure of sets with the same items has the same items. *)
  Lemma clo_cores (I J K K' : lrset) : lr g J -> (forall p d k, I p d k <-> clo g (F_code g) K p d k) -> (forall p d k, clo g (F_code g) K' p d k -> J p d k) ->
    (forall p d k, K p d k -> exists k', K' p d k') -> forall p d k, I p d k -> exists k', J p d k'.
  Proof using W He Ht.
    intros HJ HI HJ' HK p d k Hk. apply HI in Hk. destruct (make_tables_built _ _ _ _ W Ht) as (lr0 & m & B).
    destruct (lr_final g start W lr0 (b_items _ _ _ _ _ B)) as (_ & _ & _ & _ & HG).
    induction Hk as [p d k H|p d k a q pq b k' Hc IH Hs Hq Ha HF Htk].
    - destruct (HK _ _ _ H) as [k' Hk']. exists k'. apply HJ', clo_base, Hk'.
    - destruct IH as [k1 Hk1]. destruct (HG J HJ _ _ _ Hk1) as [_ Hrd]. destruct (Hrd _ Hs) as (_ & a1 & Ha1 & s & Es & Hin).
      destruct (first_at_nonempty g start W He p (S d) k1 a1 s Ha1 Es) as [y Hy]. destruct (proj1 (get_token_idx_In g y) (Hin y Hy)) as [k2 Hk2]. apply tok_idx in Hk2.
      exists k2. apply (lr_closed g J HJ). refine (clo_rule g (F_code g) J p d k1 a1 q pq y k2 (clo_base _ _ _ _ _ _ Hk1) Hs Hq Ha1 _ Hk2). exists s. auto.
  Qed.

  (** A state whose items with the dot inside are all [p, S d] and a state in which only [p, d] has
      [x] after the dot. *)
  Lemma lands i j p d x : (forall q e k, st t i q (S e) k -> (q, S e) = (p, S d)) -> (exists k, st t i p (S d) k) ->
    (forall q e k, st t j q e k -> sym_at g q e x -> (q, e) = (p, d)) -> sym_at g p d x ->
    forall k, st t j p d k -> st t i p (S d) k.
  Proof using W He Ht.
    intros Hi [k0 Hk0] Hj Hx k Hk. destruct (make_tables_built _ _ _ _ W Ht) as (lr0 & m & B). pose proof (b_items _ _ _ _ _ B) as El. pose proof (b_merged _ _ _ _ _ B) as Hm.
    destruct (st_lr g _ W hash t _ _ _ _ _ _ B Hk) as (I & HI & HIk & HIj & _).
    destruct (st_lr g _ W hash t _ _ _ _ _ _ B Hk0) as (I2 & HI2 & HIk2 & HIi & Hc2).
    assert (HJ : lr g (clo g (F_code g) (move g I x))) by (apply lr_goto; auto; exists p, (S d), k, d; auto).
    assert (KI : forall q e l, move g I x q e l -> (q, e) = (p, S d)).
    { intros q e l (e' & -> & Hq & Hs). pose proof (Hj _ _ _ (HIj _ _ _ Hq) Hs) as E. injection E as -> ->. reflexivity. }
    assert (E2 : exists K2 : lrset, (forall q e l, K2 q e l -> (q, e) = (p, S d)) /\ (exists l, K2 p (S d) l) /\ forall q e l, I2 q e l <-> clo g (F_code g) K2 q e l).
    { inversion HI2 as [E|I3 y HI3 Hne E]; subst I2.
      - apply clo_kernel in HIk2 as [(_ & C & _)|[C _]]; discriminate.
      - exists (move g I3 y). split; [|split; [|reflexivity]].
        + intros q e l Hq. pose proof Hq as (e' & -> & _). apply (Hi q e' l). apply HIi, clo_base, Hq.
        + apply clo_kernel in HIk2 as [H|[C _]]; [eauto|discriminate]. }
    destruct E2 as (K2 & HK2 & [l2 Hl2] & Hq2).
    assert (C1 : forall q e l, I2 q e l -> exists l', clo g (F_code g) (move g I x) q e l').
    { apply (clo_cores I2 _ K2 (move g I x) HJ Hq2); auto. intros q e l Hq. rewrite (f_equal fst (HK2 _ _ _ Hq) : q = p), (f_equal snd (HK2 _ _ _ Hq) : e = S d). exists k, d. auto. }
    assert (C2 : forall q e l, clo g (F_code g) (move g I x) q e l -> exists l', I2 q e l').
    { apply (clo_cores _ I2 (move g I x) K2 HI2 ltac:(reflexivity)); [intros q e l; apply Hq2|]. intros q e l Hq. rewrite (f_equal fst (KI _ _ _ Hq) : q = p), (f_equal snd (KI _ _ _ Hq) : e = S d). eauto. }
    destruct (lr_final g start W lr0 El) as (_ & _ & _ & Hall & _). destruct (Hall _ HJ) as (u & Hu & Hr). pose proof (lr_wf g start W lr0 El u Hu) as Hwu.
    destruct (lr_to_lalr g start W lr0 El _ m Hm u Hu) as (j' & s' & Hj' & Hc' & Hin & _).
    assert (j' = i) as ->.
    { destruct Hk0 as (si & Hsi & Hk0). assert (Hws : wf_set si) by (eapply (lalr_wf lr0 _ m Hm); eauto using nth_error_In).
      eapply (lalr_core lr0 _ m Hm); eauto. rewrite Hc'. apply (core_ext u si Hwu Hws). intros q e. split; intros [l Hl].
      - apply Hr in Hl. destruct (C2 _ _ _ Hl) as [l' Hl']. destruct (HIi _ _ _ Hl') as (s1 & Hs1 & H1). exists l'. congruence.
      - destruct (Hc2 q e l) as [l' Hl']; [exists si; auto|]. destruct (C1 _ _ _ Hl') as [l1 Hl1]. exists l1. apply Hr, Hl1. }
    exists s'. split; auto. apply Hin, Hr, clo_base. exists d. auto.
  Qed.

  (** The items of a walk over the body of a rule. *)
  Lemma walk i ts l : moves_all g t i ts l -> Forall (tree_ok g) ts -> forall p pr e k, nth_error (g_prods g) p = Some pr ->
    map (root g) ts = map Some (firstn (length ts) (skipn e (p_syms pr))) -> st t i p e k -> st t l p (length ts + e) k.
  Proof using W Hst Ht.
    induction 1 as [i|i tr j ts l Hm _ IH]; intros Ho p pr e k Hp Hr Hk; [exact Hk|].
    destruct (skipn e (p_syms pr)) as [|y r] eqn:E; [discriminate|]. cbn [length firstn map] in Hr. injection Hr as Hy Hr. inversion Ho as [|? ? Ho1 Ho2]; subst.
    assert (N : forall (l : list sym) e y r, skipn e l = y :: r -> nth_error l e = Some y /\ skipn (S e) l = r).
    { induction l0 as [|z l0 IHl]; intros [|e0] y0 r0 E0; try discriminate; [injection E0 as -> ->; auto|]. apply (IHl e0 y0 r0 E0). }
    destruct (N _ _ _ _ E) as [Ny Er]. assert (Sy : sym_at g p e y) by (exists pr; auto).
    assert (T : trans g t i y j).
    { inversion Hm as [i' x' kx j' Htk Hs|i' p' pr' ts' l' j' Hp' Hall Hgo]; subst.
      - injection Hy as ->. destruct (a_shift _ _ A _ _ _ Hs) as (z & _ & Hz & _ & T). replace y with z; auto. destruct Hz, Htk; congruence.
      - cbn [root] in Hy. rewrite Hp' in Hy. injection Hy as <-. apply (a_goto _ _ A _ _ _ Hgo). }
    destruct T as (_ & _ & _ & T). replace (length (tr :: ts) + e) with (length ts + S e) by (cbn; lia). apply (IH Ho2 p pr); auto. rewrite Er. exact Hr.
  Qed.

  Lemma leaf_shift i tr j x : moves g t i tr j -> root g tr = Some x -> terminal x -> exists kx, tok g kx x /\ tbl_get (t_action t) i kx = Some (Shift j) /\ trans g t i x j.
  Proof using W Hst Ht.
    intros Hm Hr Hx. inversion Hm as [i' x' kx j' Htk Hs|i' p' pr' ts' l' j' Hp' Hall Hgo]; subst.
    - injection Hr as ->. exists kx. split; auto. split; auto. destruct (a_shift _ _ A _ _ _ Hs) as (z & _ & Hz & _ & T). replace x with z; auto. destruct Hz, Htk; congruence.
    - cbn [root] in Hr. rewrite Hp' in Hr. injection Hr as <-. destruct (Hx _ eq_refl).
  Qed.
  Lemma node_goto i tr j B : moves g t i tr j -> root g tr = Some (SNon B) -> tree_ok g tr -> tbl_get (t_goto t) i B = Some j \/ tr = Leaf (SNon B).
  Proof using.
    intros Hm Hr Ho. inversion Hm as [i' x' kx j' Htk Hs|i' p' pr' ts' l' j' Hp' Hall Hgo]; subst.
    - injection Hr as ->. auto.
    - cbn [root] in Hr. rewrite Hp' in Hr. injection Hr as <-. auto.
  Qed.

  (** Where two ends of the rule meet, there would be a conflict. *)
  Lemma ends_meet i i0 p pr x m y (j1 j2 jb jn : nat) : nth_error (g_prods g) p = Some pr ->
    p_syms pr = SNon (p_name pr) :: m ++ [SNon (p_name pr)] -> (exists m', m = x :: m') -> terminal x ->
    tbl_get (t_goto t) i (p_name pr) = Some j1 -> (exists kx, tok g kx x /\ tbl_get (t_action t) j1 kx = Some (Shift j2) /\ trans g t j1 x j2) ->
    nth_error m i0 = Some y -> S i0 = length m -> terminal y -> (exists ja ky, tok g ky y /\ tbl_get (t_action t) ja ky = Some (Shift jb) /\ trans g t ja y jb /\ exists k, st t ja p (S i0) k) ->
    (forall k, st t j2 p 2 k -> st t jb p (S (length m)) k) ->
    tbl_get (t_goto t) jb (p_name pr) = Some jn -> False.
  Proof using Hg W Hst He Ht.
    intros Hp Es [m' Em] Hx Hg1 (kx & Hkx & Hs2 & T2) Hy Hi0 Hty (ja & ky & Hky & Hsb & Tb & ka & Hka) Hwalk Hgn.
    set (n := length m) in *. set (E := SNon (p_name pr)) in *.
    assert (S0 : sym_at g p 0 E) by (exists pr; rewrite Es; auto).
    assert (S1 : sym_at g p 1 x) by (exists pr; rewrite Es, Em; auto).
    assert (Sy : sym_at g p (S i0) y).
    { exists pr. split; auto. rewrite Es. cbn [nth_error]. rewrite nth_error_app1; [exact Hy|]. apply nth_error_Some. congruence. }
    assert (Sn : sym_at g p (S n) E) by (exists pr; split; auto; rewrite Es; cbn [nth_error]; rewrite nth_error_app2, Nat.sub_diag by (subst n; lia); reflexivity).
    assert (Cn : complete g p (S (S n))) by (exists pr; split; auto; rewrite Es; cbn [length]; rewrite app_length; cbn [length]; subst n; lia).
    pose proof (a_goto _ _ A _ _ _ Hg1) as T1. pose proof (a_goto _ _ A _ _ _ Hgn) as Tn.
    destruct (goto_item _ _ Hg He _ _ Ht _ _ _ Hg1) as (p0 & d0 & k0 & Hk0 & Hx0). destruct (Snext _ _ _ _ p pr Hk0 Hx0 Hp) as [k1 Hk1].
    pose proof (proj2 (proj2 (proj2 T1)) _ _ _ Hk1 S0) as H1.
    (* in j1 only this rule has x after the dot *)
    assert (U1 : forall q e k, st t j1 q e k -> sym_at g q e x -> (q, e) = (p, 1)).
    { intros q e k Hq Hs. exact (no_shift _ _ Hg He _ _ Ht _ _ _ _ _ _ _ _ _ _ Hq H1 Hs S1 Hx Hkx Hs2). }
    assert (U2 : forall q e k, st t j2 q (S e) k -> (q, S e) = (p, 2)).
    { intros q e k Hq. destruct (proj1 (proj2 T2) _ _ _ Hq) as (Hs & k' & Hk'). pose proof (U1 _ _ _ Hk' Hs) as Eq. injection Eq as -> ->. reflexivity. }
    assert (Ub : forall q e k, st t jb q (S e) k -> (q, S e) = (p, S n)).
    { intros q e k Hq. destruct (proj1 (proj2 Tb) _ _ _ Hq) as (Hs & k' & Hk'). pose proof (no_shift _ _ Hg He _ _ Ht _ _ _ _ _ _ _ _ _ _ Hk' Hka Hs Sy Hty Hky Hsb) as Eq. injection Eq as -> ->. congruence. }
    pose proof (proj2 (proj2 (proj2 T2)) _ _ _ H1 S1) as H2.
    pose proof (Hwalk _ H2) as Hb.
    (* what comes from the end of the rule comes from its beginning *)
    assert (L0 : forall q k pq, st t jb q 0 k -> nth_error (g_prods g) q = Some pq -> exists k', st t i q 0 k').
    { intros q k pq Hq Hpq. destruct (st_kernel _ _ _ _ _ _ _ Hb Hq Hpq) as (u & v & l & z & Hu & Hz & Hl).
      pose proof (Ub _ _ _ Hu) as Eq. injection Eq as -> ->. assert (z = E) as -> by (destruct Hz as (? & ? & Hz), Sn as (? & ? & Sn); congruence).
      exact (lms_rule _ _ _ _ _ _ _ Hk0 Hx0 Hl Hpq). }
    assert (K1 : forall q e k z, st t jn q (S e) k -> sym_at g q (S e) z -> exists k', st t j1 q (S e) k').
    { intros q e k z Hq Hz. destruct (proj1 (proj2 Tn) _ _ _ Hq) as (Hs & k' & Hk'). destruct e as [|e].
      - destruct Hs as (pq & Hpq & Hs). destruct (L0 _ _ _ Hk' Hpq) as [k2 Hk2]. exists k2. apply (proj2 (proj2 (proj2 T1)) _ _ _ Hk2). exists pq. auto.
      - pose proof (Ub _ _ _ Hk') as Eq. injection Eq as -> ->. exfalso. destruct Hz as (pr' & Hp' & Hz), Cn as (pr2 & Hp2 & Cn). rewrite Hp' in Hp2. injection Hp2 as ->.
        assert (nth_error (p_syms pr2) (S (S n)) <> None) by congruence. apply nth_error_Some in H. lia. }
    pose proof (proj2 (proj2 (proj2 Tn)) _ _ _ Hb Sn) as Hn.
    assert (Un : forall q e k, st t jn q e k -> sym_at g q e x -> (q, e) = (p, 1)).
    { intros q [|e] k Hq Hs.
      - destruct (a_dom _ _ A _ _ _ _ Hq) as (pq & Hpq & _). destruct (st_kernel _ _ _ _ _ _ _ Hn Hq Hpq) as (u & v & l & z & Hu & Hz & Hl).
        destruct (K1 _ _ _ _ Hu Hz) as [l' Hu']. destruct (lms_rule _ _ _ _ _ _ _ Hu' Hz Hl Hpq) as [k' Hk']. eauto.
      - destruct (K1 _ _ _ _ Hq Hs) as [k' Hk']. eauto. }
    (* lookaheads go round *)
    assert (R : forall l, st t j2 p 2 l -> st t jb p 0 l).
    { intros l Hl. pose proof (Hwalk _ Hl) as Hl'. destruct (st_tok _ _ _ _ Hl') as (a & Ha & Hta).
      apply (st_closed g _ W hash t Ht He _ _ _ _ a p pr a _ Hl' Sn Hp (proj1 Ha)); [|exact Ha].
      assert (rest g p (S (S n)) = []) as ->.
      { unfold rest. rewrite Hp. destruct Cn as (pr' & Hp' & ->). rewrite Hp in Hp'. injection Hp' as <-. apply skipn_all. }
      split; auto. exists []. constructor. }
    assert (R1 : forall l, st t j2 p 2 l -> st t jn p 1 l) by (intros l Hl; exact (proj2 (proj2 (proj2 Tn)) _ _ _ (R l Hl) S0)).
    assert (L : forall l, st t jn p 1 l -> st t j2 p 2 l) by (apply (lands j2 jn p 1 x U2); eauto).
    destruct Hn as (sn & Hsn & Hn). destruct H2 as (s2 & Hs2' & H2).
    assert (En : forall p d k, st t jn p d k <-> has sn p d k) by (intros q e k; split; [intros (s & Hs & H); congruence|intros H; exists sn; auto]).
    assert (E2 : forall p d k, st t j2 p d k <-> has s2 p d k) by (intros q e k; split; [intros (s & Hs & H); congruence|intros H; exists s2; auto]).
    assert (F : found g (F_std g) (has sn) x).
    { destruct (C26_states_are_lalr _ _ Hg He _ _ Ht) as (HL & _). destruct (HL _ _ Hs2') as (I2 & HI2 & Hq2). exists I2. split; auto. right.
      intros q e k. rewrite <- (Hq2 q e k). rewrite <- (E2 q e k). split.
      - induction 1 as [q e k (e' & -> & Hq & Hs)|q e k a q' pq b k' Hc IH Hs Hq Ha HF Htk].
        + apply En in Hq. pose proof (Un _ _ _ Hq Hs) as Eq. injection Eq as -> ->. apply L, Hq.
        + exact (st_closed g _ W hash t Ht He _ _ _ _ a q' pq b _ IH Hs Hq Ha HF Htk).
      - intros Hq. destruct (make_tables_built _ _ _ _ W Ht) as (lr0 & mm & B). destruct (st_lr g _ W hash t _ _ _ _ _ _ B Hq) as (I & HI & Hk & Hi & Hc).
        destruct (Hc p 2 k1) as [k2 Hk2]; [apply E2, H2|]. apply (clo_code_std g start W He). inversion HI as [Ei|I3 z HI3 Hne Ei]; subst I.
        + apply clo_kernel in Hk2 as [(_ & C & _)|[C _]]; discriminate.
        + refine (clo_mono g (F_code g) _ _ _ _ _ _ Hk). intros u v l Hu. pose proof Hu as (v' & -> & _). assert (Hu' : st t j2 u (S v') l) by (apply Hi, clo_base, Hu).
          pose proof (U2 _ _ _ Hu') as Eq. injection Eq as -> ->. exists 1. split; auto. split; [apply En, R1, Hu'|exact S1]. }
    (* the token x itself is among the lookaheads *)
    assert (Hlx : st t jn p (S (S n)) kx).
    { apply (proj2 (proj2 (proj2 Tn)) _ _ _) ; [|exact Sn]. apply Hwalk, L. apply (proj2 (proj2 (proj2 Tn)) p 0 kx); [|exact S0].
      assert (H0 : st t jb p 0 k1) by (apply R, E2, H2). destruct (st_tok _ _ _ _ H0) as (a & Ha & _).
      apply (st_closed g _ W hash t Ht He _ _ _ _ a p pr x _ H0 S0 Hp (proj1 Ha)); [|exact Hkx]. split; auto.
      unfold rest. rewrite Hp, Es, Em. cbn [skipn app]. eexists. constructor. }
    pose proof (a_complete _ _ A _ _ _ _ Hlx Cn) as Hr. assert (H1n : has sn p 1 k1) by (apply En, R1, E2, H2).
    destruct (proj1 (C28_transitions_iff _ _ Hg He _ _ Ht jn sn p 1 k1 x Hsn H1n S1) Hx) as (kx' & Hkx' & Hj). assert (kx' = kx) as -> by (eapply tok_unique; eauto).
    destruct (proj2 Hj F) as [jx Hjx]. rewrite Hr in Hjx. destruct ((kx =? 0) && (p =? 0)); discriminate.
  Qed.

  Lemma no_tables p m pr : reachable g p -> nth_error (g_prods g) p = Some pr -> p_syms pr = SNon (p_name pr) :: m ++ [SNon (p_name pr)] -> name_last m -> False.
  Proof using Hg He Ht.
    intros Hr Hp Es Hn. pose proof Ht as Ht'. unfold make_tables in Ht'. destruct (items g) as [C| |] eqn:EC; try discriminate.
    assert (HB : exists d B, nth_error (p_syms pr) d = Some (SNon B) /\ nth_error (p_syms pr) (S d) = Some (SNon (p_name pr))).
    { rewrite Es. destruct Hn as [->|(m' & B & ->)]; [exists 0, (p_name pr); split; reflexivity|]. exists (S (length m')), B. rewrite <- app_assoc. split.
      - change (nth_error (m' ++ [SNon B] ++ [SNon (p_name pr)]) (length m') = Some (SNon B)). rewrite nth_error_app2, Nat.sub_diag by lia. reflexivity.
      - change (nth_error (m' ++ [SNon B] ++ [SNon (p_name pr)]) (S (length m')) = Some (SNon (p_name pr))). rewrite nth_error_app2 by lia. replace (S (length m') - length m') with 1 by lia. reflexivity. }
    destruct HB as (d & B & H1 & H2). destruct (proj1 (C24_returns_iff _ _ Hg He) (ex_intro _ C EC) _ _ _ _ Hr Hp H1) as [_ H].
    apply (H _ H2 (p_name pr) []); [constructor|]. apply (left_recursive_lms g He). exists (SNon (p_name pr)), (m ++ [SNon (p_name pr)]). split; [|constructor].
    exists pr. split; [eauto using nth_error_In|]. auto.
  Qed.

  Lemma both_unused p m : both_ends g p m -> token_first m \/ name_last m -> forall tr i j, moves g t i tr j -> tree_ok g tr -> ~ In p (postorder tr).
  Proof using Hg W Hst He Ht.
    intros (pr & Hp & Es) Hm tr i j Hmv Ho Hin. destruct (inner_node g t p tr i j Hmv Ho Hin) as (i' & ts & l & j' & Hall & Hmn & Ho'). clear tr i j Hmv Ho Hin.
    apply tree_ok_node in Ho' as (pr' & Hp' & Hts & Hr). rewrite Hp in Hp'. injection Hp' as <-.
    assert (Hgo : exists j, tbl_get (t_goto t) i' (p_name pr) = Some j) by (inversion Hmn as [|i1 p1 pr1 ts1 l1 j1 Hp1 Hall1 Hgo]; subst; rewrite Hp in Hp1; injection Hp1 as <-; eauto).
    destruct Hgo as (j0 & Hgo). destruct (goto_item _ _ Hg He _ _ Ht _ _ _ Hgo) as (p0 & d0 & k0 & Hk0 & Hx0). destruct (Snext _ _ _ _ p pr Hk0 Hx0 Hp) as [k1 Hk1].
    assert (Hre : reachable g p).
    { destruct (make_tables_built _ _ _ _ W Ht) as (lr0 & mm & B). destruct (st_lr g _ W hash t _ _ _ _ _ _ B Hk1) as (I & HI & Hk & _). exact (lr_reachable g I HI _ _ _ Hk). }
    assert (Hcase : name_last m \/ exists x m' m0 y, m = x :: m' /\ terminal x /\ m = m0 ++ [y] /\ terminal y).
    { destruct Hm as [(x & m' & -> & Hx)|Hm]; [|auto]. destruct (exists_last (l := x :: m') ltac:(discriminate)) as (m0 & y & E).
      destruct (as_non y) as [B|] eqn:Ey.
      - left. right. exists m0, B. rewrite E. destruct y; try discriminate. injection Ey as ->. reflexivity.
      - right. exists x, m', m0, y. split; auto. split; auto. split; auto. intros B ->. discriminate. }
    destruct Hcase as [Hn|(x & m' & m0 & y & Em & Hx & Em0 & Hy)]; [exact (no_tables _ _ _ Hre Hp Es Hn)|].
    (* the parts of the body *)
    rewrite Es in Hr. cbn [map] in Hr. destruct ts as [|t1 ts]; [discriminate|]. cbn [map] in Hr. injection Hr as Hr1 Hr.
    rewrite map_app in Hr. cbn [map] in Hr. destruct (map_eq_app _ _ _ _ Hr) as (tsm & tsn & -> & Hrm & Hrn). destruct tsn as [|tn [|? ?]]; try discriminate. injection Hrn as Hrn.
    inversion Hts as [|? ? O1 O2]; subst. apply Forall_app in O2 as [Om On]. inversion On as [|? ? On1 _]; subst.
    inversion Hall as [|i1 tr1 j1 ts1 k2 H1 H2]; subst. apply moves_all_app in H2 as (jb & H2 & H3). inversion H3 as [|i3 tr3 jn ts3 k3 Hmn3 _]; subst.
    destruct (node_goto _ _ _ _ H1 Hr1 O1) as [G1| ->]; [|exact (tree_ok_leaf g _ O1 _ eq_refl)].
    destruct (node_goto _ _ _ _ Hmn3 Hrn On1) as [Gn| ->]; [|exact (tree_ok_leaf g _ On1 _ eq_refl)].
    (* the first token *)
    assert (A1 : exists j2, (exists kx, tok g kx x /\ tbl_get (t_action t) j1 kx = Some (Shift j2) /\ trans g t j1 x j2) /\ forall k, st t j2 p 2 k -> st t jb p (S (length (x :: m'))) k).
    { cbn [map] in Hrm. destruct tsm as [|tx tsm]; [discriminate|]. cbn [map] in Hrm. injection Hrm as Hrx Hrm. inversion H2 as [|i2 tr2 j2 ts2 k2 Hm2 Hm3]; subst.
      destruct (leaf_shift _ _ _ _ Hm2 Hrx Hx) as (kx & Hkx & Hs & T). exists j2. split; [eauto|]. intros k Hk. inversion Om as [|? ? Om1 Om2]; subst.
      pose proof (f_equal (@length _) Hrm) as El. rewrite !map_length in El. replace (S (length (x :: m'))) with (length tsm + 2) by (cbn [length]; lia).
      apply (walk _ _ _ Hm3 Om2 p pr 2 k Hp); [|exact Hk]. rewrite Es. cbn [skipn app]. rewrite El, firstn_app, firstn_all, Nat.sub_diag. cbn [firstn]. rewrite app_nil_r. exact Hrm. }
    (* the last token *)
    assert (A2 : exists ja ky, tok g ky y /\ tbl_get (t_action t) ja ky = Some (Shift jb) /\ trans g t ja y jb /\ exists k, st t ja p (S (length m0)) k).
    { rewrite Em0 in Hrm, Es. rewrite map_app in Hrm. destruct (map_eq_app _ _ _ _ Hrm) as (ts0 & tsy & -> & Hr0 & Hry). destruct tsy as [|ty [|? ?]]; try discriminate. injection Hry as Hry.
      apply Forall_app in Om as [Om0 _]. apply moves_all_app in H2 as (ja & H4 & H5). inversion H5 as [|i5 tr5 j5 ts5 k5 Hm5 Hm6]; subst. inversion Hm6; subst.
      destruct (leaf_shift _ _ _ _ Hm5 Hry Hy) as (ky & Hky & Hs & T). exists ja, ky. repeat (split; [assumption|]). exists k1.
      assert (S0 : st t j1 p 1 k1) by (apply (proj2 (proj2 (proj2 (a_goto _ _ A _ _ _ G1))) _ _ _ Hk1); exists pr; rewrite Es; auto).
      pose proof (f_equal (@length _) Hr0) as El. rewrite !map_length in El. replace (S (length m0)) with (length ts0 + 1) by lia.
      apply (walk _ _ _ H4 Om0 p pr 1 k1 Hp); [|exact S0]. rewrite Es. cbn [skipn app]. rewrite El, <- app_assoc, firstn_app, firstn_all, Nat.sub_diag. cbn [firstn]. rewrite app_nil_r. exact Hr0. }
    destruct A1 as (j2 & A1 & A3).
    apply (ends_meet i' (length m0) p pr x (x :: m') y j1 j2 jb jn Hp Es); eauto.
    - rewrite Em0, nth_error_app2, Nat.sub_diag by lia. reflexivity.
    - rewrite Em0, app_length. cbn [length]. lia.
  Qed.
End Operator.
