(** The LR(1) states of a grammar of expressions, for C83. *)
From Verif Require Import Base Grammar GrammarSpec GrammarProofs First Item ItemSpec ItemProofs Table TableSpec TableFacts TreeFacts LayerSpec.

Section Layers.
  Variables (g : grammar) (L : layers).
  Notation E := (ly_name L).
  Notation n := (ly_top L).
  Hypothesis W : wf_grammar g (E 0).
  Hypothesis Hplain : plain g.
  Hypothesis Hfresh : forall i, i <= n -> aug_name (E 0) <> E i.
  Hypothesis HR : forall p pr, nth_error (g_prods g) p = Some pr -> p <> 0 -> lrule L (p_name pr) (p_syms pr).
  Hypothesis HR' : forall A b, lrule L A b -> exists p pr, p <> 0 /\ nth_error (g_prods g) p = Some pr /\ p_name pr = A /\ p_syms pr = b.
  Hypothesis HU : forall p q pp pq, p <> 0 -> q <> 0 -> nth_error (g_prods g) p = Some pp -> nth_error (g_prods g) q = Some pq ->
    p_name pp = p_name pq -> p_syms pp = p_syms pq -> p = q.
  Hypothesis Hinj : forall i j, i <= n -> j <= n -> E i = E j -> i = j.
  Hypothesis Hnd : NoDup (ly_tokens L).
  Hypothesis Hterm : Forall terminal (ly_tokens L).
  Notation F := (F_std g).

  (** ** Rules *)

  (** Production [p] has this name and body. *)
  Definition rul (p : nat) (A : str) (b : list sym) : Prop := exists pr, nth_error (g_prods g) p = Some pr /\ p_name pr = A /\ p_syms pr = b.
  Lemma rul_fun p A b A' b' : rul p A b -> rul p A' b' -> A = A' /\ b = b'.
  Proof. intros (pr & H & <- & <-) (pr' & H' & <- & <-). rewrite H in H'. injection H' as <-. auto. Qed.
  Lemma rul_at p A b d x : rul p A b -> (sym_at g p d x <-> nth_error b d = Some x).
  Proof.
    intros (pr & H & _ & <-). split; [intros (pr' & H' & Hx); congruence|intros Hx; exists pr; auto].
  Qed.
  Lemma rul_rest p A b d : rul p A b -> rest g p d = skipn d b.
  Proof. intros (pr & H & _ & <-). unfold rest. rewrite H. reflexivity. Qed.
  Lemma rul_complete p A b d : rul p A b -> (complete g p d <-> d = length b).
  Proof. intros (pr & H & _ & <-). split; [intros (pr' & H' & ->); congruence|intros ->; exists pr; auto]. Qed.
  Lemma rul0 : rul 0 (aug_name (E 0)) [SNon (E 0)].
  Proof using W. eexists. split; [apply (wg_prod0 _ _ W)|auto]. Qed.
  Lemma rul_ex p pr : nth_error (g_prods g) p = Some pr -> rul p (p_name pr) (p_syms pr).
  Proof. intros H. exists pr. auto. Qed.
  Lemma rul_uniq p q A b : p <> 0 -> q <> 0 -> rul p A b -> rul q A b -> p = q.
  Proof using HU. intros Hp Hq (pp & H & E1 & E2) (pq & H' & E1' & E2'). eapply HU; eauto; congruence. Qed.

  (** ** Terminals *)

  Lemma op_token i op : i < n -> In op (ly_ops L i) -> In op (ly_tokens L).
  Proof. intros Hi Ho. right. right. apply in_or_app. right. apply in_flat_map. exists i. split; auto. apply in_seq. lia. Qed.
  Lemma atom_token a : In a (ly_atoms L) -> In a (ly_tokens L).
  Proof. intros Ha. right. right. apply in_or_app. auto. Qed.
  Lemma token_term x : In x (ly_tokens L) -> terminal x.
  Proof using Hterm. rewrite Forall_forall in Hterm. auto. Qed.
  Lemma flat_once (f : nat -> list sym) : forall l, NoDup l -> NoDup (flat_map f l) -> forall i j x, In i l -> In j l -> In x (f i) -> In x (f j) -> i = j.
  Proof.
    induction l as [|a l IH]; intros Hl Hf i j x Hi Hj Hx Hy; [destruct Hi|]. cbn [flat_map] in Hf. inversion Hl as [|? ? Ha Hl']; subst.
    assert (G : forall k, In k l -> In x (f a) -> In x (f k) -> False).
    { intros k Hk H1 H2. clear -Hf Hk H1 H2. revert Hf H1. generalize (f a) as u. induction u as [|y u IH]; intros Hf H1; [destruct H1|].
      cbn [app] in Hf. inversion Hf as [|? ? Hn Hf']; subst. destruct H1 as [->|H1]; [|exact (IH Hf' H1)].
      apply Hn, in_or_app. right. apply in_flat_map. eauto. }
    destruct Hi as [<-|Hi], Hj as [<-|Hj]; auto; [destruct (G j Hj Hx Hy)|destruct (G i Hi Hy Hx)|].
    apply (IH Hl') with (x := x); auto. clear -Hf. revert Hf. generalize (f a) as u. induction u as [|y u IH]; cbn [app]; auto. intros H. inversion H; auto.
  Qed.
  Lemma app_once (l l' : list sym) : NoDup (l ++ l') -> forall x, In x l -> In x l' -> False.
  Proof.
    induction l as [|y l IH]; intros H x H1 H2; [destruct H1|]. cbn [app] in H. inversion H as [|? ? Hn H']; subst.
    destruct H1 as [->|H1]; [apply Hn, in_or_app; auto|eauto].
  Qed.
  Lemma op_level i j op : i < n -> j < n -> In op (ly_ops L i) -> In op (ly_ops L j) -> i = j.
  Proof using Hnd.
    intros Hi Hj H1 H2. inversion Hnd as [|? ? _ H]; subst. inversion H as [|? ? _ H']; subst.
    eapply (flat_once (ly_ops L) (seq 0 n)); eauto using seq_NoDup; try (apply in_seq; lia).
    clear -H'. revert H'. generalize (ly_atoms L) as u. induction u as [|y u IH]; cbn [app]; auto. intros H. inversion H; auto.
  Qed.
  Lemma op_others i op : i < n -> In op (ly_ops L i) -> op <> ly_open L /\ op <> ly_close L /\ ~ In op (ly_atoms L).
  Proof using Hnd.
    intros Hi Ho. inversion Hnd as [|? ? N1 H]; subst. inversion H as [|? ? N2 H']; subst.
    assert (Hf : In op (flat_map (ly_ops L) (seq 0 n))) by (apply in_flat_map; exists i; split; auto; apply in_seq; lia).
    split; [intros ->; apply N1; right; apply in_or_app; auto|]. split; [intros ->; apply N2, in_or_app; auto|]. intros Ha. eapply app_once; eauto.
  Qed.
  Lemma open_others : ly_open L <> ly_close L /\ ~ In (ly_open L) (ly_atoms L) /\ ~ In (ly_close L) (ly_atoms L).
  Proof using Hnd.
    inversion Hnd as [|? ? N1 H]; subst. inversion H as [|? ? N2 H']; subst.
    split; [intros E0; apply N1; left; auto|]. split; intros Ha; [apply N1; right|apply N2]; apply in_or_app; auto.
  Qed.

  (** Where a terminal is written. *)
  Lemma one_place p d p' d' x : sym_at g p d x -> sym_at g p' d' x -> terminal x -> p = p' /\ d = d'.
  Proof using W HR HU Hinj Hnd Hterm.
    intros H H' Hx. pose proof open_others as (O1 & O2 & O3).
    assert (G : forall p d, sym_at g p d x -> p <> 0 /\ exists pr, nth_error (g_prods g) p = Some pr /\ nth_error (p_syms pr) d = Some x).
    { intros q e (pr & Hp & He). split; [|eauto]. intros ->. rewrite (wg_prod0 _ _ W) in Hp. injection Hp as <-. cbn [p_syms] in He.
      destruct e as [|[|e]]; try discriminate He. injection He as <-. eapply Hx; reflexivity. }
    destruct (G _ _ H) as (Hp & pr & Epr & Ex). destruct (G _ _ H') as (Hp' & pr' & Epr' & Ex'). clear G H H'.
    assert (C : forall pr d, lrule L (p_name pr) (p_syms pr) -> nth_error (p_syms pr) d = Some x ->
      (exists i, i < n /\ In x (ly_ops L i) /\ d = 1 /\ p_name pr = E i /\ ly_left L i = true /\ p_syms pr = [SNon (E i); x; SNon (E (S i))]) \/
      (exists i, i < n /\ In x (ly_ops L i) /\ d = 1 /\ p_name pr = E i /\ ly_left L i = false /\ p_syms pr = [SNon (E (S i)); x; SNon (E i)]) \/
      (p_name pr = E n /\ p_syms pr = [ly_open L; SNon (E 0); ly_close L] /\ (d = 0 /\ x = ly_open L \/ d = 2 /\ x = ly_close L)) \/
      (p_name pr = E n /\ p_syms pr = [x] /\ d = 0 /\ In x (ly_atoms L))).
    { clear -Hx. intros pr d HR Hd. inversion HR as [i op Hi Hl Ho EN EB|i op Hi Hl Ho EN EB|i Hi EN EB|EN EB|a Ha EN EB]; rewrite <- EB in Hd.
      - destruct d as [|[|[|d]]]; try (destruct d; discriminate Hd); cbn [nth_error] in Hd; injection Hd as <-; try (exfalso; eapply Hx; reflexivity). left. exists i. auto 10.
      - destruct d as [|[|[|d]]]; try (destruct d; discriminate Hd); cbn [nth_error] in Hd; injection Hd as <-; try (exfalso; eapply Hx; reflexivity). right. left. exists i. auto 10.
      - destruct d as [|d]; try (destruct d; discriminate Hd); cbn [nth_error] in Hd; injection Hd as <-; exfalso; eapply Hx; reflexivity.
      - right. right. left. destruct d as [|[|[|d]]]; try (destruct d; discriminate Hd); cbn [nth_error] in Hd; injection Hd as <-; try (exfalso; eapply Hx; reflexivity); auto 10.
      - right. right. right. destruct d as [|d]; try (destruct d; discriminate Hd); cbn [nth_error] in Hd. injection Hd as <-. auto. }
    pose proof (C _ _ (HR _ _ Epr Hp) Ex) as C1. pose proof (C _ _ (HR _ _ Epr' Hp') Ex') as C2. clear C.
    destruct C1 as [(i & Hi & Ho & -> & N1 & Hl & B1)|[(i & Hi & Ho & -> & N1 & Hl & B1)|[(N1 & B1 & D1)|(N1 & B1 & -> & A1)]]],
      C2 as [(j & Hj & Ho' & -> & N2 & Hl' & B2)|[(j & Hj & Ho' & -> & N2 & Hl' & B2)|[(N2 & B2 & D2)|(N2 & B2 & -> & A2)]]];
      try (assert (i = j) as <- by (eapply op_level; eauto)); try congruence;
      try (destruct (op_others _ _ Hi Ho) as (Q1 & Q2 & Q3)); try (destruct (op_others _ _ Hj Ho') as (Q1 & Q2 & Q3));
      try (split; [eapply HU; eauto; congruence|reflexivity]); try tauto; try (exfalso; destruct D1 as [[_ D1]|[_ D1]]; congruence); try (exfalso; destruct D2 as [[_ D2]|[_ D2]]; congruence).
    destruct D1 as [[-> D1]|[-> D1]], D2 as [[-> D2]|[-> D2]]; try congruence; split; auto; eapply HU; eauto; congruence.
  Qed.

  (** ** Lookaheads *)

  (** What can follow an expression of level [i] in brackets ([c] the closing one) or outside ([c] the end). *)
  Definition look (i : nat) (c y : sym) : Prop :=
    y = c \/ (exists j, j <= i /\ j < n /\ ly_left L j = true /\ In y (ly_ops L j)) \/ (exists j, j < i /\ j < n /\ ly_left L j = false /\ In y (ly_ops L j)).
  Definition ctx (c : sym) : Prop := c = SEof \/ c = ly_close L.
  (** The level of a production. *)
  Definition lev (p i : nat) : Prop := p <> 0 /\ i <= n /\ exists b, rul p (E i) b.
  Definition lk (p : nat) (c y : sym) : Prop := (p = 0 /\ y = c) \/ exists i, lev p i /\ look i c y.

  Lemma lev_fun p i j : lev p i -> lev p j -> i = j.
  Proof using Hinj. intros (_ & Hi & b & H) (_ & Hj & b' & H'). destruct (rul_fun _ _ _ _ _ H H') as [E0 _]. auto. Qed.
  Lemma lk_lev p i c y : lev p i -> (lk p c y <-> look i c y).
  Proof using Hinj.
    intros Hl. split; [|intros H; right; eauto]. intros [[-> _]|(j & Hj & H)]; [destruct Hl as [Hl _]; congruence|]. rewrite (lev_fun _ _ _ Hl Hj). exact H.
  Qed.
  Lemma lk_zero c y : lk 0 c y <-> y = c.
  Proof. split; [intros [[_ H]|(j & [H _] & _)]; congruence|intros ->; left; auto]. Qed.
  Lemma look_self i c : look i c c.
  Proof. left. reflexivity. Qed.
  Lemma look_up i c y : look i c y -> look (S i) c y.
  Proof. intros [H|[(j & H)|(j & H)]]; [left; auto|right; left|right; right]; exists j; intuition lia. Qed.
  Lemma lk_self p c i : p = 0 \/ lev p i -> lk p c c.
  Proof. intros [->|H]; [left; auto|right; exists i; split; auto using look_self]. Qed.

  Lemma tok0 : tok g 0 SEof.
  Proof using W. destruct (wg_tokens _ _ W) as (l & E0 & _). split; [rewrite E0; reflexivity|intros; lia]. Qed.
  Lemma tok_in x : In x (g_tokens g) -> exists k, tok g k x.
  Proof.
    intros H. unfold tok. destruct (get_token_idx g x) as [k|] eqn:Ek; [exists k; apply tok_idx; auto|exfalso].
    unfold get_token_idx in Ek. rewrite find_index_none in Ek. specialize (Ek _ H). cbn beta in Ek. apply eqb_neq in Ek. congruence.
  Qed.
  Lemma tok_body p A b x : rul p A b -> In x b -> exists k, tok g k x.
  Proof using W.
    intros (pr & H & _ & <-) Hx. apply tok_in. destruct (wg_tokens _ _ W) as (l & -> & _ & Hl). right. apply Hl. exists pr. eauto using nth_error_In.
  Qed.
  Lemma tok_fun k x y : tok g k x -> tok g k y -> x = y.
  Proof. intros [H _] [H' _]. congruence. Qed.
  Lemma rul_ex' A b : lrule L A b -> exists p, p <> 0 /\ rul p A b.
  Proof using HR'. intros H. destruct (HR' _ _ H) as (p & pr & H0 & Hp & E1 & E2). exists p. split; auto. exists pr. auto. Qed.
  Lemma tok_ctx c : ctx c -> exists k, tok g k c.
  Proof using W HR'.
    intros [-> | ->]; [exists 0; apply tok0|]. destruct (rul_ex' _ _ (lr_paren L)) as (p & _ & H). eapply tok_body; eauto. simpl. auto.
  Qed.

  Lemma derives_head t v b w : terminal t -> derives g (t :: v) (b :: w) -> b = t.
  Proof.
    intros Ht H. remember (t :: v) as u eqn:Eu. remember (b :: w) as u' eqn:Eu'. revert v Eu b w Eu'.
    induction H as [u|u v' w' H1 H2 IH]; intros v -> b w E'; [congruence|].
    inversion H1 as [a A b' c HA E1 E2]. destruct a as [|a1 a]; [injection E1 as <- _; exfalso; eapply Ht; reflexivity|].
    injection E1 as -> _. cbn [app] in E2. eapply IH; [symmetry; exact E2|exact E'].
  Qed.
  Lemma F_head t v b : terminal t -> (F (t :: v) b <-> b = t).
  Proof.
    intros Ht. split; [intros [_ [w H]]; eapply derives_head; eauto|]. intros ->. split; auto. exists v. apply derives_refl.
  Qed.

  (** ** States *)

  (** The items that begin a state where something of level [m] is expected; [c] is what follows outside, [c'] what
      follows the expected expression. *)
  Inductive kern : nat -> nat -> nat -> sym -> sym -> Prop :=
  | k_start c : kern 0 0 0 c c
  | k_paren q c : q <> 0 -> rul q (E n) [ly_open L; SNon (E 0); ly_close L] -> kern q 1 0 c (ly_close L)
  | k_left q i op c : q <> 0 -> i < n -> ly_left L i = true -> In op (ly_ops L i) -> rul q (E i) [SNon (E i); op; SNon (E (S i))] -> kern q 2 (S i) c c
  | k_right q i op c : q <> 0 -> i < n -> ly_left L i = false -> In op (ly_ops L i) -> rul q (E i) [SNon (E (S i)); op; SNon (E i)] -> kern q 2 i c c.
  Definition one (q e : nat) (c : sym) : lrset := fun p d k => exists y, tok g k y /\ p = q /\ d = e /\ lk q c y.
  Definition A_set (q e m : nat) (c c' : sym) : lrset := fun p d k => exists y, tok g k y /\
    ((p = q /\ d = e /\ lk q c y) \/ (d = 0 /\ exists i, m <= i /\ lev p i /\ look i c' y)).
  Definition B1_set (q e m : nat) (c c' : sym) : lrset := fun p d k => exists y, tok g k y /\
    ((p = q /\ d = S e /\ lk q c y) \/ (d = 1 /\ lev p m /\ sym_at g p 0 (SNon (E m)) /\ look m c' y)).
  Definition B2_set (i : nat) (c : sym) : lrset := fun p d k => exists y, tok g k y /\
    d = 1 /\ exists j, (j = i \/ S j = i) /\ lev p j /\ sym_at g p 0 (SNon (E i)) /\ look j c y.

  Lemma kern_ctx q e m c c' : kern q e m c c' -> ctx c -> ctx c'.
  Proof. intros HK Hc; destruct HK; auto. right. reflexivity. Qed.
  Lemma kern_m q e m c c' : kern q e m c c' -> m <= n /\ sym_at g q e (SNon (E m)).
  Proof using W.
    intros [c1|q1 c1 _ H|q1 i op c1 _ Hi _ _ H|q1 i op c1 _ Hi _ _ H]; (split; [lia|]); [rewrite (rul_at _ _ _ _ _ rul0)|rewrite (rul_at _ _ _ _ _ H)..]; reflexivity.
  Qed.
  Lemma kern_lev q e m c c' : kern q e m c c' -> q = 0 \/ exists i, lev q i.
  Proof. intros [c1|q1 c1 H0 H|q1 i op c1 H0 Hi _ _ H|q1 i op c1 H0 Hi _ _ H]; auto; right; [exists n|exists i|exists i]; (split; [auto|split; [lia|eauto]]). Qed.

  (** The first symbol of a rule, if it is a name. *)
  Lemma first_name p i B : lev p i -> sym_at g p 0 (SNon B) ->
    (exists op, i < n /\ ly_left L i = true /\ In op (ly_ops L i) /\ B = E i /\ rul p (E i) [SNon (E i); op; SNon (E (S i))]) \/
    (exists op, i < n /\ ly_left L i = false /\ In op (ly_ops L i) /\ B = E (S i) /\ rul p (E i) [SNon (E (S i)); op; SNon (E i)]) \/
    (i < n /\ B = E (S i) /\ rul p (E i) [SNon (E (S i))]).
  Proof using HR Hinj Hterm.
    intros (H0 & Hi & b & H) Hs. rewrite (rul_at _ _ _ _ _ H) in Hs. destruct H as (pr & Hp & EN & EB).
    pose proof (HR _ _ Hp H0) as HL. rewrite EN, EB in HL. pose proof (rul_ex _ _ Hp) as H. rewrite EN, EB in H. clear EN EB.
    inversion HL as [j op Hj Hl Ho E1 E2|j op Hj Hl Ho E1 E2|j Hj E1 E2|E1 E2|a Ha E1 E2]; subst b; injection Hs as Hs.
    - apply Hinj in E1; try lia. subst j. left. exists op. auto.
    - apply Hinj in E1; try lia. subst j. right. left. exists op. auto 10.
    - apply Hinj in E1; try lia. subst j. right. right. auto.
    - exfalso. eapply (token_term (ly_open L)); [left; reflexivity|exact Hs].
    - exfalso. eapply (token_term a); [apply atom_token, Ha|exact Hs].
  Qed.

  Lemma names_lev i q pq : i <= n -> nth_error (g_prods g) q = Some pq -> p_name pq = E i -> lev q i.
  Proof using W Hfresh.
    intros Hi Hq En. split; [|split; auto; exists (p_syms pq); exists pq; auto].
    intros ->. rewrite (wg_prod0 _ _ W) in Hq. injection Hq as <-. cbn [p_name] in En. eapply Hfresh; eauto.
  Qed.

  Lemma terminal_ctx c : ctx c -> terminal c.
  Proof using Hterm. intros [-> | ->]; [intros n0 H; discriminate|apply token_term; right; left; reflexivity]. Qed.
  Lemma terminal_look i c y : ctx c -> look i c y -> terminal y.
  Proof using Hterm. intros Hc [->|[(j & _ & Hj & _ & H)|(j & _ & Hj & _ & H)]]; [apply terminal_ctx, Hc|apply token_term; eapply op_token; eauto..]. Qed.

  Lemma clo_up q e m c c' : kern q e m c c' -> ctx c -> forall p d k, clo g F (one q e c) p d k -> A_set q e m c c' p d k.
  Proof using W HR Hinj Hterm Hfresh.
    intros HK Hc p d k. pose proof (kern_ctx _ _ _ _ _ HK Hc) as Hc'.
    induction 1 as [p d k (y & Hy & -> & -> & H)|p d k a q' pq b k' _ (y & Hy & Hi) Hs Hq Ha HF Hk].
    { exists y. auto. }
    assert (a = y) as -> by (destruct Hy as [Hy _]; congruence).
    enough (G : exists i, i <= n /\ m <= i /\ p_name pq = E i /\ look i c' b).
    { destruct G as (i & Hin & Hmi & En & Hb). exists b. split; auto. right. split; auto. exists i. split; auto. split; auto. eapply names_lev; eauto. }
    destruct Hi as [(-> & -> & Hl)|(-> & i & Hmi & Hlv & Hl)].
    - destruct HK as [c1|q1 c1 H0 H|q1 i op c1 H0 Hin Hle Ho H|q1 i op c1 H0 Hin Hle Ho H].
      + rewrite (rul_at _ _ _ _ _ rul0) in Hs. injection Hs as Hs. rewrite (rul_rest _ _ _ _ rul0) in HF. cbn [skipn app] in HF.
        apply lk_zero in Hl. subst y. rewrite F_head in HF by (apply terminal_ctx; auto). subst b. exists 0. repeat split; auto; try lia. apply look_self.
      + rewrite (rul_at _ _ _ _ _ H) in Hs. injection Hs as Hs. rewrite (rul_rest _ _ _ _ H) in HF. cbn [skipn app] in HF.
        rewrite F_head in HF by (apply terminal_ctx; auto). subst b. exists 0. repeat split; auto; try lia. apply look_self.
      + rewrite (rul_at _ _ _ _ _ H) in Hs. injection Hs as Hs. rewrite (rul_rest _ _ _ _ H) in HF. cbn [skipn app] in HF.
        assert (Hv : lev q1 i) by (split; [auto|split; [lia|eauto]]). rewrite (lk_lev _ _ _ _ Hv) in Hl.
        rewrite F_head in HF by (eapply terminal_look; eauto). subst b. exists (S i). repeat split; auto; try lia. apply look_up, Hl.
      + rewrite (rul_at _ _ _ _ _ H) in Hs. injection Hs as Hs. rewrite (rul_rest _ _ _ _ H) in HF. cbn [skipn app] in HF.
        assert (Hv : lev q1 i) by (split; [auto|split; [lia|eauto]]). rewrite (lk_lev _ _ _ _ Hv) in Hl.
        rewrite F_head in HF by (eapply terminal_look; eauto). subst b. exists i. repeat split; auto; lia.
    - destruct (first_name _ _ _ Hlv Hs) as [(op & Hin & Hle & Ho & En & H)|[(op & Hin & Hle & Ho & En & H)|(Hin & En & H)]];
        rewrite (rul_rest _ _ _ _ H) in HF; cbn [skipn app] in HF.
      + rewrite F_head in HF by (apply token_term; eapply op_token; eauto). subst b. exists i. repeat split; auto; try lia. right. left. exists i. auto.
      + rewrite F_head in HF by (apply token_term; eapply op_token; eauto). subst b. exists (S i). repeat split; auto; try lia. right. right. exists i. auto.
      + rewrite F_head in HF by (eapply terminal_look; eauto). subst b. exists (S i). repeat split; auto; try lia. apply look_up, Hl.
  Qed.

  Lemma clo_down q e m c c' : kern q e m c c' -> ctx c -> forall p d k, A_set q e m c c' p d k -> clo g F (one q e c) p d k.
  Proof using W HR HR' Hinj Hterm Hfresh.
    intros HK Hc. pose proof (kern_ctx _ _ _ _ _ HK Hc) as Hc'. destruct (tok_ctx _ Hc') as [kc Hkc].
    set (C := clo g F (one q e c)).
    assert (ST : forall p d k y q' i b k', C p d k -> tok g k y -> sym_at g p d (SNon (E i)) -> lev q' i -> F (rest g p (S d) ++ [y]) b -> tok g k' b -> C q' 0 k').
    { intros p d k y q' i b k' H Hy Hs (_ & _ & b' & pq & Hq & En & _) HF Hk. eapply clo_rule; eauto; [rewrite En; auto|apply Hy]. }
    assert (KN : forall y k, tok g k y -> lk q c y -> C q e k) by (intros y k Hy Hl; apply clo_base; exists y; auto).
    assert (OP : forall i, i < n -> ly_left L i = true -> (forall p, lev p i -> C p 0 kc) -> forall op k p, In op (ly_ops L i) -> tok g k op -> lev p i -> C p 0 k).
    { intros i Hi Hl HC op k p Ho Hk Hp. destruct (rul_ex' _ _ (lr_left L i op Hi Hl Ho)) as (p1 & H0 & H1).
      assert (Hv : lev p1 i) by (split; [auto|split; [lia|eauto]]).
      apply (ST p1 0 kc c' p i op k); auto; [rewrite (rul_at _ _ _ _ _ H1); reflexivity|].
      rewrite (rul_rest _ _ _ _ H1). cbn [skipn app]. apply F_head; auto. apply token_term. eapply op_token; eauto. }
    assert (BA : forall p y k, lev p m -> look m c' y -> tok g k y -> C p 0 k).
    { destruct HK as [c1|q1 c1 H0 H|q1 i op c1 H0 Hin Hle Ho H|q1 i op c1 H0 Hin Hle Ho H].
      - assert (HC : forall p, lev p 0 -> C p 0 kc).
        { intros p Hp. apply (ST 0 0 kc c1 p 0 c1 kc); auto; [apply (KN c1); auto; apply lk_zero; auto|rewrite (rul_at _ _ _ _ _ rul0); reflexivity|].
          rewrite (rul_rest _ _ _ _ rul0). apply F_head; auto. apply terminal_ctx, Hc. }
        intros p y k Hp [->|[(j & Hj & Hj' & Hl & Hy)|(j & Hj & _)]] Hk; [rewrite (tok_unique _ _ _ _ Hk Hkc); auto| |lia].
        assert (j = 0) by lia. subst j. eapply OP; eauto.
      - assert (HC : forall p, lev p 0 -> C p 0 kc).
        { intros p Hp. destruct (tok_ctx _ Hc) as [k1 Hk1]. apply (ST q1 1 k1 c1 p 0 (ly_close L) kc); auto.
          - apply (KN c1); auto. right. exists n. split; [split; [auto|split; [lia|eauto]]|apply look_self].
          - rewrite (rul_at _ _ _ _ _ H). reflexivity.
          - rewrite (rul_rest _ _ _ _ H). apply F_head; auto. apply terminal_ctx, Hc'. }
        intros p y k Hp [->|[(j & Hj & Hj' & Hl & Hy)|(j & Hj & _)]] Hk; [rewrite (tok_unique _ _ _ _ Hk Hkc); auto| |lia].
        assert (j = 0) by lia. subst j. eapply OP; eauto.
      - assert (Hv : lev q1 i) by (split; [auto|split; [lia|eauto]]).
        assert (G : forall p y k, lev p (S i) -> look i c1 y -> tok g k y -> C p 0 k).
        { intros p y k Hp Hy Hk. apply (ST q1 2 k y p (S i) y k); auto; [apply (KN y); auto; apply (lk_lev _ _ _ _ Hv); auto|rewrite (rul_at _ _ _ _ _ H); reflexivity|].
          rewrite (rul_rest _ _ _ _ H). apply F_head; auto. eapply terminal_look; eauto. }
        intros p y k Hp Hy Hk. destruct Hy as [->|[(j & Hj & Hj' & Hl & Hy)|(j & Hj & Hj' & Hl & Hy)]].
        + apply (G p c1 k); auto. apply look_self.
        + assert (D : j <= i \/ j = S i) by lia. destruct D as [D| ->].
          * apply (G p y k); auto. right. left. exists j. auto.
          * eapply (OP (S i)); eauto. intros p' Hp'. apply (G p' c1 kc); auto. apply look_self.
        + apply (G p y k); auto. right. right. exists j. split; [|auto]. assert (j <> i) by (intros ->; congruence). lia.
      - assert (Hv : lev q1 i) by (split; [auto|split; [lia|eauto]]).
        intros p y k Hp Hy Hk. apply (ST q1 2 k y p i y k); auto; [apply (KN y); auto; apply (lk_lev _ _ _ _ Hv); auto|rewrite (rul_at _ _ _ _ _ H); reflexivity|].
        rewrite (rul_rest _ _ _ _ H). apply F_head; auto. eapply terminal_look; eauto. }
    assert (LO : forall t, m + t <= n -> forall p y k, lev p (m + t) -> look (m + t) c' y -> tok g k y -> C p 0 k).
    { induction t as [|t IH]; intros Hn p y k Hp Hy Hk; [rewrite Nat.add_0_r in *; eapply BA; eauto|]. rewrite Nat.add_succ_r in *. specialize (IH ltac:(lia)).
      destruct (rul_ex' _ _ (lr_pass L (m + t) ltac:(lia))) as (p1 & H0 & H1).
      assert (Hv : lev p1 (m + t)) by (split; [auto|split; [lia|eauto]]).
      assert (G : forall p y k, lev p (S (m + t)) -> look (m + t) c' y -> tok g k y -> C p 0 k).
      { intros p' y' k' Hp' Hy' Hk'. apply (ST p1 0 k' y' p' (S (m + t)) y' k'); auto; [apply (IH p1 y' k'); auto|rewrite (rul_at _ _ _ _ _ H1); reflexivity|].
        rewrite (rul_rest _ _ _ _ H1). apply F_head; auto. eapply terminal_look; eauto. }
      destruct Hy as [->|[(j & Hj & Hj' & Hl & Hy)|(j & Hj & Hj' & Hl & Hy)]].
      - apply (G p c' k); auto. apply look_self.
      - assert (D : j <= m + t \/ j = S (m + t)) by lia. destruct D as [D| ->].
        + apply (G p y k); auto. right. left. exists j. auto.
        + eapply (OP (S (m + t))); eauto. intros p' Hp'. apply (G p' c' kc); auto. apply look_self.
      - assert (D : j < m + t \/ j = m + t) by lia. destruct D as [D| ->].
        + apply (G p y k); auto. right. right. exists j. auto.
        + destruct (rul_ex' _ _ (lr_right L (m + t) y Hj' Hl Hy)) as (p2 & H2 & H3).
          assert (Hv2 : lev p2 (m + t)) by (split; [auto|split; [lia|eauto]]).
          apply (ST p2 0 kc c' p (S (m + t)) y k); auto; [apply (IH p2 c' kc); auto; apply look_self|rewrite (rul_at _ _ _ _ _ H3); reflexivity|].
          rewrite (rul_rest _ _ _ _ H3). cbn [skipn app]. apply F_head; auto. apply token_term. eapply op_token; eauto. }
    intros p d k (y & Hy & [(-> & -> & Hl)|(-> & i & Hmi & Hlv & Hl)]); [eapply KN; eauto|].
    replace i with (m + (i - m)) in * by lia. apply (LO (i - m)) with (y := y); auto. destruct Hlv as (_ & Hin & _). lia.
  Qed.
  Lemma clo_kern q e m c c' : kern q e m c c' -> ctx c -> set_eq (clo g F (one q e c)) (A_set q e m c c').
  Proof using W HR HR' Hinj Hterm Hfresh. intros HK Hc p d k. split; [apply clo_up; auto|apply clo_down; auto]. Qed.

  (** ** Shapes *)

  Inductive sh := ShA (q e m : nat) | ShB (q e m : nat) | ShP (i : nat) | ShC (q e : nat).
  Definition inner (e : nat) (c : sym) : sym := if Nat.eqb e 1 then ly_close L else c.
  Definition ends (q e : nat) : Prop := q <> 0 /\
    ((rul q (E n) [ly_open L; SNon (E 0); ly_close L] /\ e = 3) \/ (exists a, In a (ly_atoms L) /\ rul q (E n) [a] /\ e = 1)).
  Definition valid (s : sh) : Prop :=
    match s with
    | ShA q e m | ShB q e m => forall c, kern q e m c (inner e c)
    | ShP i => 1 <= i <= n
    | ShC q e => ends q e
    end.
  Definition sset (s : sh) (c : sym) : lrset :=
    match s with
    | ShA q e m => A_set q e m c (inner e c)
    | ShB q e m => B1_set q e m c (inner e c)
    | ShP i => B2_set i c
    | ShC q e => one q e c
    end.
  Definition core (s : sh) (p d : nat) : Prop :=
    match s with
    | ShA q e m => (p = q /\ d = e) \/ (d = 0 /\ exists i, m <= i /\ lev p i)
    | ShB q e m => (p = q /\ d = S e) \/ (d = 1 /\ lev p m /\ sym_at g p 0 (SNon (E m)))
    | ShP i => d = 1 /\ exists j, (j = i \/ S j = i) /\ lev p j /\ sym_at g p 0 (SNon (E i))
    | ShC q e => p = q /\ d = e
    end.

  Lemma ends_lev q e : ends q e -> lev q n.
  Proof. intros (H0 & [(H & _)|(a & _ & H & _)]); (split; [auto|split; [lia|eauto]]). Qed.
  Lemma ends_complete q e : ends q e -> complete g q e.
  Proof. intros (H0 & [(H & ->)|(a & _ & H & ->)]); rewrite (rul_complete _ _ _ _ H); reflexivity. Qed.
  Lemma complete_no p d x : complete g p d -> sym_at g p d x -> False.
  Proof. intros (pr & H & ->) (pr' & H' & Hx). rewrite H in H'. injection H' as <-. assert (nth_error (p_syms pr) (length (p_syms pr)) <> None) as Hn by congruence. apply nth_error_Some in Hn. lia. Qed.
  Lemma kern_e q m c c' : kern q 0 m c c' -> q = 0.
  Proof. intros H. inversion H; auto. Qed.
  Lemma inner_ctx e c : ctx c -> ctx (inner e c).
  Proof. unfold inner. destruct (Nat.eqb e 1); auto. intros _. right. reflexivity. Qed.

  Lemma core_ok s c p d : valid s -> ctx c -> ((exists k, sset s c p d k) <-> core s p d).
  Proof using W HR'.
    intros V Hc. destruct (tok_ctx _ Hc) as [k Hk]. destruct s as [q e m|q e m|i|q e]; cbn [sset core valid] in *.
    - destruct (tok_ctx _ (inner_ctx e _ Hc)) as [k' Hk']. split.
      + intros (k0 & y & _ & [(-> & -> & _)|(-> & i & Hi & Hl & _)]); [auto|right; eauto].
      + intros [[-> ->]|(-> & i & Hi & Hl)]; [exists k, c|exists k', (inner e c)]; (split; [auto|]).
        * left. repeat split. destruct (kern_lev _ _ _ _ _ (V c)) as [-> |[i Hi]]; [apply (lk_self 0 c 0); auto|apply (lk_self q c i); auto].
        * right. split; auto. exists i. auto using look_self.
    - destruct (tok_ctx _ (inner_ctx e _ Hc)) as [k' Hk']. split.
      + intros (k0 & y & _ & [(-> & -> & _)|(-> & Hl & Hs & _)]); [auto|right; eauto].
      + intros [[-> ->]|(-> & Hl & Hs)]; [exists k, c|exists k', (inner e c)]; (split; [auto|]).
        * left. repeat split. destruct (kern_lev _ _ _ _ _ (V c)) as [-> |[i Hi]]; [apply (lk_self 0 c 0); auto|apply (lk_self q c i); auto].
        * right. auto using look_self.
    - split.
      + intros (k0 & y & _ & -> & j & Hj & Hl & Hs & _). eauto 10.
      + intros (-> & j & Hj & Hl & Hs). exists k, c. split; auto. split; auto. exists j. auto using look_self.
    - split; [intros (k0 & y & _ & -> & -> & _); auto|]. intros [-> ->]. exists k, c. split; auto. repeat split. apply (lk_self q c n). right. eapply ends_lev; eauto.
  Qed.

  (** What comes after the names of a state. *)
  Lemma kern_next q e m c c' x : kern q e m c c' -> sym_at g q (S e) x -> e = 1 /\ x = ly_close L /\ q <> 0 /\ rul q (E n) [ly_open L; SNon (E 0); ly_close L].
  Proof using W.
    intros [c1|q1 c1 H0 H|q1 i op c1 H0 Hin Hle Ho H|q1 i op c1 H0 Hin Hle Ho H] Hs;
      [rewrite (rul_at _ _ _ _ _ rul0) in Hs|rewrite (rul_at _ _ _ _ _ H) in Hs..]; try discriminate Hs. injection Hs as <-. auto.
  Qed.
  Lemma name_next p i B x : lev p i -> sym_at g p 0 (SNon B) -> sym_at g p 1 x ->
    i < n /\ In x (ly_ops L i) /\ ((ly_left L i = true /\ B = E i /\ rul p (E i) [SNon (E i); x; SNon (E (S i))]) \/
                                  (ly_left L i = false /\ B = E (S i) /\ rul p (E i) [SNon (E (S i)); x; SNon (E i)])).
  Proof using HR Hinj Hterm.
    intros Hl Hs Hx. destruct (first_name _ _ _ Hl Hs) as [(op & Hin & Hle & Ho & En & H)|[(op & Hin & Hle & Ho & En & H)|(Hin & En & H)]];
      rewrite (rul_at _ _ _ _ _ H) in Hx; try discriminate Hx; injection Hx as <-; auto 10.
  Qed.
  Lemma core_sym s p d x : valid s -> core s p d -> sym_at g p d x -> (exists q e m, s = ShA q e m) \/ terminal x.
  Proof using W HR Hinj Hterm.
    intros V Hc Hx. destruct s as [q e m|q e m|i|q e]; cbn [valid core] in *; [left; eauto|right..].
    - destruct Hc as [[-> ->]|(-> & Hl & Hs)].
      + destruct (kern_next _ _ _ _ _ _ (V SEof) Hx) as (_ & -> & _). apply terminal_ctx. right. reflexivity.
      + destruct (name_next _ _ _ _ Hl Hs Hx) as (Hi & Ho & _). apply token_term. eapply op_token; eauto.
    - destruct Hc as (-> & j & _ & Hl & Hs). destruct (name_next _ _ _ _ Hl Hs Hx) as (Hi & Ho & _). apply token_term. eapply op_token; eauto.
    - destruct Hc as [-> ->]. destruct (complete_no _ _ _ (ends_complete _ _ V) Hx).
  Qed.

  Lemma sset_core s c p d k : valid s -> ctx c -> sset s c p d k -> core s p d.
  Proof using W HR'. intros V Hc H. apply (core_ok s c p d V Hc). eauto. Qed.

  (** The lookaheads of one item of a state. *)
  Lemma row s c p d : valid s -> ctx c -> core s p d -> exists c1, ctx c1 /\ (forall k, sset s c p d k <-> exists y, tok g k y /\ lk p c1 y) /\
    (forall q e m, s = ShA q e m -> d = 0 -> p <> 0 -> c1 = inner e c).
  Proof using W HR Hinj Hterm.
    intros V Hc H. destruct s as [q e m|q e m|i|q e]; cbn [valid core sset] in *.
    - destruct H as [[-> ->]|(-> & i & Hi & Hl)].
      + exists c. split; auto. split.
        * intros k. split; [|intros (y & Hy & H); exists y; auto]. intros (y & Hy & [(_ & _ & H)|(-> & i & _ & Hl & _)]); [eauto|].
          exfalso. rewrite (kern_e _ _ _ _ (V c)) in Hl. destruct Hl as [Hl _]. congruence.
        * intros q' e' m' E0 -> Hq. injection E0 as -> <- ->. exfalso. apply Hq. eapply kern_e, (V c).
      + exists (inner e c). split; [apply inner_ctx, Hc|]. split; [|intros q' e' m' E0 _ _; injection E0 as _ -> _; reflexivity].
        intros k. split.
        * intros (y & Hy & [(-> & <- & H)|(_ & j & _ & Hj & H)]); [exfalso; rewrite (kern_e _ _ _ _ (V c)) in Hl; destruct Hl as [Hl _]; congruence|].
          exists y. split; auto. right. eauto.
        * intros (y & Hy & H). rewrite (lk_lev _ _ _ _ Hl) in H. exists y. split; auto. right. split; auto. exists i. auto.
    - destruct H as [[-> ->]|(-> & Hl & Hs)].
      + exists c. split; auto. split; [|discriminate].
        intros k. split; [|intros (y & Hy & H); exists y; auto]. intros (y & Hy & [(_ & _ & H)|(He & Hl & _)]); [eauto|].
        exfalso. injection He as ->. rewrite (kern_e _ _ _ _ (V c)) in Hl. destruct Hl as [Hl _]. congruence.
      + exists (inner e c). split; [apply inner_ctx, Hc|]. split; [|discriminate].
        intros k. split.
        * intros (y & Hy & [(-> & He & H)|(_ & Hj & _ & H)]); [exfalso; injection He as <-; rewrite (kern_e _ _ _ _ (V c)) in Hl; destruct Hl as [Hl _]; congruence|].
          exists y. split; auto. right. eauto.
        * intros (y & Hy & H). rewrite (lk_lev _ _ _ _ Hl) in H. exists y. auto 10.
    - destruct H as (-> & j & Hj & Hl & Hs). exists c. split; auto. split; [|discriminate]. intros k. split.
      + intros (y & Hy & _ & j' & _ & Hj' & _ & H). exists y. split; auto. right. eauto.
      + intros (y & Hy & H). rewrite (lk_lev _ _ _ _ Hl) in H. exists y. split; auto. split; auto. exists j. auto.
    - destruct H as [-> ->]. exists c. split; auto. split; [|discriminate]. intros k. unfold one. split; [intros (y & Hy & _ & _ & H); eauto|].
      intros (y & Hy & H). exists y. auto.
  Qed.

  (** The dot after a terminal. *)
  Lemma after_terminal s p d x : valid s -> core s p d -> sym_at g p d x -> terminal x -> ends p (S d) \/ exists m, valid (ShA p (S d) m).
  Proof using W HR Hinj Hterm.
    intros V Hc Hx Ht. destruct s as [q e m|q e m|i|q e]; cbn [valid core] in *.
    - destruct Hc as [[-> ->]|(-> & i & Hi & Hl)].
      + destruct (kern_m _ _ _ _ _ (V SEof)) as [_ Hs]. exfalso. destruct Hs as (pr & Hp & Hs), Hx as (pr' & Hp' & Hx). apply (Ht (E m)). congruence.
      + destruct Hl as (H0 & Hin & b & H). rewrite (rul_at _ _ _ _ _ H) in Hx. destruct H as (pr & Hp & EN & EB).
        pose proof (HR _ _ Hp H0) as HL. rewrite EN, EB in HL. pose proof (rul_ex _ _ Hp) as H. rewrite EN, EB in H. clear EN EB.
        inversion HL as [j op Hj Hl Ho E1 E2|j op Hj Hl Ho E1 E2|j Hj E1 E2|E1 E2|a Ha E1 E2]; subst b; injection Hx as Hx; try (exfalso; eapply Ht; symmetry; exact Hx).
        * right. exists 0. intros c. rewrite <- E1 in H. apply k_paren; auto.
        * left. split; auto. right. exists a. rewrite <- E1 in H. auto.
    - destruct Hc as [[-> ->]|(-> & Hl & Hs)].
      + destruct (kern_next _ _ _ _ _ _ (V SEof) Hx) as (-> & -> & H0 & H). left. split; auto.
      + pose proof Hl as (H0 & _). destruct (name_next _ _ _ _ Hl Hs Hx) as (Hi & Ho & [(HL & _ & H)|(HL & _ & H)]); right; eexists; intros c; [eapply k_left|eapply k_right]; eauto.
    - destruct Hc as (-> & j & _ & Hl & Hs).
      pose proof Hl as (H0 & _). destruct (name_next _ _ _ _ Hl Hs Hx) as (Hi & Ho & [(HL & _ & H)|(HL & _ & H)]); right; eexists; intros c; [eapply k_left|eapply k_right]; eauto.
    - destruct Hc as [-> ->]. destruct (complete_no _ _ _ (ends_complete _ _ V) Hx).
  Qed.

  Lemma clo_still (K : lrset) : (forall p d k B, K p d k -> ~ sym_at g p d (SNon B)) -> set_eq (clo g F K) K.
  Proof.
    intros H p d k. split; [|apply clo_base]. induction 1 as [|p d k a q pq b k' _ IH Hs]; auto. destruct (H _ _ _ _ IH Hs).
  Qed.

  Definition shaped (I : lrset) : Prop := exists s c, valid s /\ ctx c /\ set_eq I (sset s c).
  Lemma shaped_eq I J : set_eq I J -> shaped J -> shaped I.
  Proof. intros H (s & c & V & Hc & H'). exists s, c. repeat split; auto; intros HI; [apply H', H, HI|apply H, H', HI]. Qed.
  Lemma shaped_one p d c : ctx c -> (ends p d \/ exists m, valid (ShA p d m)) -> shaped (clo g F (one p d c)).
  Proof using W HR HR' Hinj Hterm Hfresh.
    intros Hc [He|(m & V)].
    - exists (ShC p d), c. split; [exact He|]. split; auto. apply clo_still. intros p' d' k B (y & _ & -> & -> & _) Hs. eapply complete_no; [apply ends_complete, He|exact Hs].
    - exists (ShA p d m), c. split; [exact V|]. split; auto. apply clo_kern; [apply V|exact Hc].
  Qed.
  Lemma shaped_still s c : valid s -> ctx c -> (forall q e m, s <> ShA q e m) -> shaped (clo g F (sset s c)).
  Proof using W HR HR' Hinj Hterm.
    intros V Hc Hs. exists s, c. split; auto. split; auto. apply clo_still. intros p d k B H Hx.
    destruct (core_sym s p d _ V (sset_core _ _ _ _ _ V Hc H) Hx) as [(q & e & m & ->)|Ht]; [eapply Hs; reflexivity|eapply Ht; reflexivity].
  Qed.

  Lemma shaped_init : shaped (clo g F init_set).
  Proof using W HR HR' Hinj Hterm Hfresh.
    assert (V : valid (ShA 0 0 0)) by (intros c; apply k_start).
    assert (Hc : ctx SEof) by (left; reflexivity).
    apply (shaped_eq _ (clo g F (one 0 0 SEof))); [|apply shaped_one; eauto].
    apply clo_eq. intros p d k. unfold init_set, one. split.
    - intros (-> & -> & ->). exists SEof. split; [apply tok0|]. repeat split. apply lk_zero. reflexivity.
    - intros (y & Hy & -> & -> & H). apply lk_zero in H. subst y. repeat split. eapply tok_unique; [exact Hy|apply tok0].
  Qed.

  Lemma shaped_goto s c x : valid s -> ctx c -> (exists p d k, move g (sset s c) x p d k) -> shaped (clo g F (move g (sset s c) x)).
  Proof using W HR HR' HU Hinj Hnd Hterm Hfresh.
    intros V Hc (p & d' & k & d & -> & HI & Hx). pose proof (sset_core _ _ _ _ _ V Hc HI) as Hcore.
    assert (D : terminal x \/ exists B, x = SNon B) by (destruct x; try (left; intros ? ?; discriminate); eauto).
    destruct D as [Ht|(B & ->)].
    - destruct (row _ _ _ _ V Hc Hcore) as (c1 & Hc1 & Hrow & _).
      apply (shaped_eq _ (clo g F (one p (S d) c1))); [|apply shaped_one; auto; eapply after_terminal; eauto].
      apply clo_eq. intros p' d' k'. unfold one, move. split.
      + intros (d1 & -> & H1 & Hx1). destruct (one_place _ _ _ _ _ Hx1 Hx Ht) as [-> ->]. apply Hrow in H1 as (y & Hy & H1). exists y. auto.
      + intros (y & Hy & -> & -> & H1). exists d. split; auto. split; auto. apply Hrow. eauto.
    - destruct (core_sym _ _ _ _ V Hcore Hx) as [(q & e & m & ->)|Ht]; [|destruct (Ht B eq_refl)].
      cbn [valid sset core] in *. destruct (kern_m _ _ _ _ _ (V c)) as [Hm Hkm]. pose proof (inner_ctx e _ Hc) as Hc'.
      assert (K0 : forall p', p' = q -> e = 0 -> forall i, ~ lev p' i) by (intros p' -> -> i (H0 & _); apply H0; eapply kern_e, (V c)).
      assert (J : exists j, B = E j /\ m <= j <= n).
      { destruct Hcore as [[-> ->]|(-> & i & Hi & Hl)].
        - exists m. split; [|lia]. destruct Hx as (pr & Hp & Hx), Hkm as (pr' & Hp' & Hkm). congruence.
        - destruct (first_name _ _ _ Hl Hx) as [(op & Hin & Hle & Ho & En & H)|[(op & Hin & Hle & Ho & En & H)|(Hin & En & H)]]; [exists i|exists (S i)|exists (S i)]; split; auto; lia. }
      destruct J as (j & -> & Hj). assert (D : j = m \/ m < j) by lia. destruct D as [-> |Hmj].
      + apply (shaped_eq _ (clo g F (sset (ShB q e m) c))); [|apply shaped_still; [exact V|exact Hc|discriminate]].
        apply clo_eq. intros p' d' k'. cbn [sset]. unfold move, A_set, B1_set. split.
        * intros (d1 & -> & (y & Hy & [(-> & -> & H1)|(-> & i & Hi & Hl & H1)]) & Hx1); exists y; split; auto. right. split; auto.
          assert (i = m) as ->; [|auto]. pose proof Hl as (_ & Hin' & _).
          destruct (first_name _ _ _ Hl Hx1) as [(op & Hin & Hle & Ho & En & H)|[(op & Hin & Hle & Ho & En & H)|(Hin & En & H)]]; apply Hinj in En; lia.
        * intros (y & Hy & [(-> & -> & H1)|(-> & Hl & Hs & H1)]); [exists e|exists 0]; repeat split; auto; exists y; split; auto. right. split; auto. exists m. auto.
      + apply (shaped_eq _ (clo g F (sset (ShP j) (inner e c)))); [|apply shaped_still; [cbn [valid]; lia|exact Hc'|discriminate]].
        apply clo_eq. intros p' d' k'. cbn [sset]. unfold move, A_set, B2_set. split.
        * intros (d1 & -> & (y & Hy & [(-> & -> & H1)|(-> & i & Hi & Hl & H1)]) & Hx1).
          -- exfalso. destruct Hx1 as (pr & Hp & Hx1), Hkm as (pr' & Hp' & Hkm). assert (E m = E j) as E0 by congruence. apply Hinj in E0; lia.
          -- exists y. split; auto. split; auto. exists i. split; auto. pose proof Hl as (_ & Hin' & _).
             destruct (first_name _ _ _ Hl Hx1) as [(op & Hin & Hle & Ho & En & H)|[(op & Hin & Hle & Ho & En & H)|(Hin & En & H)]]; apply Hinj in En; lia.
        * intros (y & Hy & -> & i & Hi & Hl & Hs & H1). exists 0. split; auto. split; auto. exists y. split; auto. right. split; auto. exists i. split; [lia|auto].
  Qed.

  Theorem states_shaped I : lr_state g F I -> shaped I.
  Proof using W HR HR' HU Hinj Hnd Hterm Hfresh.
    induction 1 as [|I x HI IH Hne]; [apply shaped_init|]. destruct IH as (s & c & V & Hc & H).
    apply (shaped_eq _ (clo g F (move g (sset s c) x))); [apply clo_eq; intros p d k; apply move_ext, H|].
    apply shaped_goto; auto. destruct Hne as (p & d & k & Hm). exists p, d, k. eapply (move_ext g I); eauto.
  Qed.

  (** ** Cores *)

  Lemma nt_fun p d A B : sym_at g p d (SNon A) -> sym_at g p d (SNon B) -> A = B.
  Proof. intros (pr & H & Hx) (pr' & H' & Hx'). congruence. Qed.
  Lemma kern_hot q e m c c' : kern q e m c c' -> q = 0 \/ 1 <= e.
  Proof. intros HK. destruct HK; auto. Qed.
  Lemma core_hot q e m p d B : valid (ShA q e m) -> core (ShA q e m) p d -> sym_at g p d (SNon B) -> p = 0 \/ 1 <= d -> p = q /\ d = e.
  Proof.
    intros V [H|(-> & i & _ & H0 & _)] _ [-> |Hd]; auto; [congruence|lia].
  Qed.
  (** The items past the first symbol but one, or of the start rule. *)
  Lemma kern_far q e m c c' : kern q e m c c' -> q = 0 \/ 2 <= S e.
  Proof. intros HK. destruct (kern_hot _ _ _ _ _ HK); auto. right. lia. Qed.

  Lemma core_inj s s' : valid s -> valid s' -> (forall p d, core s p d <-> core s' p d) -> s = s'.
  Proof using W HR HR' Hinj Hterm.
    intros V V' H.
    assert (AA : forall q e m s, valid (ShA q e m) -> valid s -> (forall p d, core (ShA q e m) p d <-> core s p d) -> ShA q e m = s).
    { clear -W HR Hinj Hterm. intros q e m s V V' H. destruct (kern_m _ _ _ _ _ (V SEof)) as [Hm Hx]. assert (Hc : core s q e) by (apply H; left; auto).
      destruct (core_sym s q e _ V' Hc Hx) as [(q' & e' & m' & ->)|Ht]; [|exfalso; eapply Ht; reflexivity].
      destruct (core_hot _ _ _ _ _ _ V' Hc Hx) as [<- <-]; [eapply kern_hot, (V SEof)|].
      destruct (kern_m _ _ _ _ _ (V' SEof)) as [Hm' Hx']. f_equal. apply Hinj; auto. eapply nt_fun; eauto. }
    assert (PE : forall i, 1 <= i <= n -> exists p, core (ShP i) p 1 /\ complete g p 1 /\ lev p (i - 1)).
    { clear -W HR'. intros i Hi. destruct (rul_ex' _ _ (lr_pass L (i - 1) ltac:(lia))) as (p & H0 & H). replace (S (i - 1)) with i in H by lia. exists p.
      assert (Hl : lev p (i - 1)) by (split; [auto|split; [lia|eauto]]).
      split; [|split; auto; rewrite (rul_complete _ _ _ _ H); reflexivity]. cbn [core]. split; auto. exists (i - 1). split; [lia|]. split; auto. rewrite (rul_at _ _ _ _ _ H). reflexivity. }
    assert (BB : forall q e m s, valid (ShB q e m) -> valid s -> (forall q e m, s <> ShA q e m) -> (forall p d, core (ShB q e m) p d <-> core s p d) -> ShB q e m = s).
    { clear AA. intros q e m s0 V0 V0' N H0. assert (Hc : core s0 q (S e)) by (apply H0; left; auto).
      pose proof (kern_far _ _ _ _ _ (V0 SEof)) as Hfar. destruct (kern_m _ _ _ _ _ (V0 SEof)) as [Hm Hx].
      destruct s0 as [q' e' m'|q' e' m'|i|q' e']; [destruct (N q' e' m' eq_refl)|..]; cbn [core valid] in *.
      - destruct Hc as [[-> E0]|(E0 & Hl & _)].
        + injection E0 as <-. f_equal. destruct (kern_m _ _ _ _ _ (V0' SEof)) as [Hm' Hx']. apply Hinj; auto. eapply nt_fun; eauto.
        + exfalso. injection E0 as ->. pose proof (kern_e _ _ _ _ (V0 SEof)) as ->. destruct Hl as [Hl _]. congruence.
      - exfalso. destruct Hc as (E0 & j & _ & Hl & _). injection E0 as ->. pose proof (kern_e _ _ _ _ (V0 SEof)) as ->. destruct Hl as [Hl _]. congruence.
      - exfalso. destruct Hc as [-> <-]. destruct V0' as (Hq & [(H1 & E0)|(a & Ha & H1 & E0)]); injection E0 as ->.
        + rewrite (rul_at _ _ _ _ _ H1) in Hx. injection Hx as Hx. eapply (terminal_ctx (ly_close L)); [right; reflexivity|exact Hx].
        + apply Hq. eapply kern_e, (V0 SEof). }
    destruct s as [q e m|q e m|i|q e]; [apply AA; auto| | |].
    - destruct s' as [q' e' m'|q' e' m'|i'|q' e']; [symmetry; apply AA; auto; intros; symmetry; apply H|apply BB; auto; discriminate..].
    - destruct s' as [q' e' m'|q' e' m'|i'|q' e']; [symmetry; apply AA; auto; intros; symmetry; apply H|symmetry; apply BB; auto; [discriminate|intros; symmetry; apply H]| |].
      + f_equal. destruct (PE i V) as (p & Hp & _). pose proof (proj1 (H _ _) Hp) as Hp'. cbn [core valid] in *.
        destruct Hp as (_ & j & _ & _ & Hs), Hp' as (_ & j' & _ & _ & Hs'). apply Hinj; try lia. eapply nt_fun; eauto.
      + exfalso. destruct (PE i V) as (p & Hp & _). pose proof (proj1 (H _ _) Hp) as Hp'. cbn [core valid] in *. destruct Hp' as [<- <-], Hp as (_ & j & _ & _ & Hs).
        destruct V' as (Hq & [(_ & E0)|(a & Ha & H1 & _)]); [discriminate|]. rewrite (rul_at _ _ _ _ _ H1) in Hs. injection Hs as ->. eapply token_term; [apply atom_token, Ha|reflexivity].
    - destruct s' as [q' e' m'|q' e' m'|i'|q' e']; [symmetry; apply AA; auto; intros; symmetry; apply H|symmetry; apply BB; auto; [discriminate|intros; symmetry; apply H]| |].
      + exfalso. destruct (PE i' V') as (p & Hp & _). pose proof (proj2 (H _ _) Hp) as Hp'. cbn [core valid] in *. destruct Hp' as [<- <-], Hp as (_ & j & _ & _ & Hs).
        destruct V as (Hq & [(_ & E0)|(a & Ha & H1 & _)]); [discriminate|]. rewrite (rul_at _ _ _ _ _ H1) in Hs. injection Hs as ->. eapply token_term; [apply atom_token, Ha|reflexivity].
      + cbn [core] in H. destruct (proj1 (H q e) (conj eq_refl eq_refl)) as [-> ->]. reflexivity.
  Qed.

  Lemma shaped_core I J s c : set_eq I (sset s c) -> valid s -> ctx c -> shaped J -> same_core I J -> exists c', ctx c' /\ set_eq J (sset s c').
  Proof using W HR HR' Hinj Hterm.
    intros HI V Hc (s' & c' & V' & Hc' & HJ) Hsc. assert (s = s') as ->; [|eauto]. apply core_inj; auto. intros p d.
    rewrite <- (core_ok s c p d V Hc), <- (core_ok s' c' p d V' Hc'). specialize (Hsc p d).
    split; intros [k Hk].
    - destruct (proj1 Hsc) as [k' Hk']; [exists k; apply HI, Hk|]. exists k'. apply HJ, Hk'.
    - destruct (proj2 Hsc) as [k' Hk']; [exists k; apply HJ, Hk|]. exists k'. apply HI, Hk'.
  Qed.

  (** Of three states with one core two are equal: there are two contexts. *)
  Theorem states_two I J K : lr_state g F I -> lr_state g F J -> lr_state g F K -> same_core I J -> same_core I K -> set_eq I J \/ set_eq I K \/ set_eq J K.
  Proof using W HR HR' HU Hinj Hnd Hterm Hfresh.
    intros HI HJ HK H1 H2. apply states_shaped in HI, HJ, HK. destruct HI as (s & c & V & Hc & HI).
    destruct (shaped_core _ _ _ _ HI V Hc HJ H1) as (c1 & Hc1 & EJ). destruct (shaped_core _ _ _ _ HI V Hc HK H2) as (c2 & Hc2 & EK).
    assert (T : forall A B c, set_eq A (sset s c) -> set_eq B (sset s c) -> set_eq A B) by (intros A B c0 HA HB p d k; rewrite (HA p d k), (HB p d k); reflexivity).
    assert (D : c = c1 \/ c = c2 \/ c1 = c2) by (destruct Hc as [-> | ->], Hc1 as [-> | ->], Hc2 as [-> | ->]; auto).
    destruct D as [<- |[<- |<-]]; [left|right; left|right; right]; eapply T; eauto.
  Qed.

  (** ** No conflicts *)

  (** A state has one complete item. *)
  Lemma one_complete s p d p' d' : valid s -> core s p d -> core s p' d' -> complete g p d -> complete g p' d' -> p = p' /\ d = d'.
  Proof using W Hplain HR HU Hinj Hterm.
    intros V Hc Hc' Hk Hk'.
    assert (Z : forall p i, lev p i -> ~ complete g p 0).
    { intros p0 i (_ & _ & b & pr & Hp & _) (pr' & Hp' & E0). rewrite Hp in Hp'. injection Hp' as <-. destruct Hplain as [He _]. destruct (He pr (nth_error_In _ _ Hp)) as [He' _].
      destruct (p_syms pr); [congruence|discriminate]. }
    assert (P1 : forall p i B, lev p i -> sym_at g p 0 (SNon B) -> complete g p 1 -> i < n /\ B = E (S i) /\ rul p (E i) [SNon (E (S i))]).
    { intros p0 i B Hl Hs Hk0. destruct (first_name _ _ _ Hl Hs) as [(op & Hin & Hle & Ho & En & H)|[(op & Hin & Hle & Ho & En & H)|H]]; auto; rewrite (rul_complete _ _ _ _ H) in Hk0; discriminate. }
    destruct s as [q e m|q e m|i|q e]; cbn [core valid] in *.
    - exfalso. destruct Hc as [[-> ->]|(-> & i & _ & Hl)]; [|eapply Z; eauto]. destruct (kern_m _ _ _ _ _ (V SEof)) as [_ Hx]. exact (complete_no _ _ _ Hk Hx).
    - assert (G : forall p d, (p = q /\ d = S e) \/ (d = 1 /\ lev p m /\ sym_at g p 0 (SNon (E m))) -> complete g p d -> p = q /\ d = S e).
      { intros p0 d0 [H|(-> & Hl & Hs)] Hk0; auto. exfalso. destruct (P1 _ _ _ Hl Hs Hk0) as (Hi & En & _). apply Hinj in En; lia. }
      destruct (G _ _ Hc Hk) as [-> ->], (G _ _ Hc' Hk') as [-> ->]. auto.
    - destruct Hc as (-> & j & Hj & Hl & Hs), Hc' as (-> & j' & Hj' & Hl' & Hs').
      destruct (P1 _ _ _ Hl Hs Hk) as (Hi & En & H), (P1 _ _ _ Hl' Hs' Hk') as (Hi' & En' & H'). split; auto.
      cbn [valid] in V. apply Hinj in En; [|lia|lia]. apply Hinj in En'; [|lia|lia]. assert (j = j') as <- by lia. destruct Hl as [H0 _], Hl' as [H0' _]. eapply rul_uniq; eauto.
    - destruct Hc as [-> ->], Hc' as [-> ->]. auto.
  Qed.

  Lemma ops_not_eof i op p A b : In op (ly_ops L i) -> rul p A b -> In op b -> op <> SEof.
  Proof using Hplain. intros _ (pr & Hp & _ & <-) Hi ->. destruct Hplain as [_ He]. apply (He pr (nth_error_In _ _ Hp) Hi). Qed.
  Lemma look_op i c y j p A b : ctx c -> look i c y -> j < n -> In y (ly_ops L j) -> rul p A b -> In y b -> (j <= i /\ ly_left L j = true) \/ (j < i /\ ly_left L j = false).
  Proof using Hplain Hnd.
    intros Hc Hy Hj Ho H Hb. destruct (op_others _ _ Hj Ho) as (_ & N2 & _). pose proof (ops_not_eof _ _ _ _ _ Ho H Hb) as N1.
    destruct Hy as [->|[(j' & H1 & H2 & H3 & H4)|(j' & H1 & H2 & H3 & H4)]]; [destruct Hc; congruence|left|right]; rewrite (op_level _ _ _ Hj H2 Ho H4); auto.
  Qed.

  (** No item of a state has a lookahead of a complete one after the dot. *)
  Lemma no_shift s c p d k p' d' x : valid s -> ctx c -> complete g p d -> sset s c p d k -> core s p' d' -> sym_at g p' d' x -> terminal x -> tok g k x -> False.
  Proof using W Hplain HR HR' HU Hinj Hnd Hterm.
    intros V Hc Hk HI Hc' Hx Ht Htk. pose proof (sset_core _ _ _ _ _ V Hc HI) as Hcore.
    destruct s as [q e m|q e m|i|q e]; cbn [core valid sset] in *.
    - destruct Hcore as [[-> ->]|(-> & i & _ & (_ & _ & b & pr & Hp & _))].
      + destruct (kern_m _ _ _ _ _ (V SEof)) as [_ Hs]. exact (complete_no _ _ _ Hk Hs).
      + destruct Hk as (pr' & Hp' & E0). rewrite Hp in Hp'. injection Hp' as <-. destruct Hplain as [He _]. destruct (He pr (nth_error_In _ _ Hp)) as [He' _].
        destruct (p_syms pr); [congruence|discriminate].
    - assert (Hq : p = q /\ d = S e) .
      { destruct Hcore as [H|(-> & Hl & Hs)]; auto. exfalso.
        destruct (first_name _ _ _ Hl Hs) as [(op & Hin & Hle & Ho & En & H)|[(op & Hin & Hle & Ho & En & H)|(Hin & En & H)]]; [rewrite (rul_complete _ _ _ _ H) in Hk; discriminate..|].
        apply Hinj in En; lia. }
      destruct Hq as [-> ->]. destruct Hc' as [[-> ->]|(-> & Hl & Hs)]; [eapply complete_no; eauto|].
      destruct (name_next _ _ _ _ Hl Hs Hx) as (Hi & Ho & [(HL & _ & H)|(_ & En & _)]); [|apply Hinj in En; lia].
      assert (Hlk : lk q c x).
      { destruct HI as (y & Hy & [(_ & _ & H1)|(E0 & Hl1 & _)]); [rewrite (tok_fun _ _ _ Htk Hy); exact H1|].
        exfalso. injection E0 as ->. pose proof (kern_e _ _ _ _ (V SEof)) as ->. destruct Hl1 as [Hl1 _]. congruence. }
      assert (Hb : In x [SNon (E m); x; SNon (E (S m))]) by (simpl; auto).
      destruct (V c) as [c1|q1 c1 H0 H1|q1 i op c1 H0 Hin Hle Ho1 H1|q1 i op c1 H0 Hin Hle Ho1 H1].
      + apply lk_zero in Hlk. pose proof (ops_not_eof _ _ _ _ _ Ho H Hb). destruct (op_others _ _ Hi Ho) as (_ & N2 & _). destruct Hc; congruence.
      + rewrite (rul_complete _ _ _ _ H1) in Hk. discriminate.
      + assert (Hv : lev q1 i) by (split; [auto|split; [lia|eauto]]). rewrite (lk_lev _ _ _ _ Hv) in Hlk. destruct (look_op _ _ _ _ _ _ _ Hc Hlk Hi Ho H Hb) as [[G _]|[G _]]; lia.
      + congruence.
    - destruct Hcore as (-> & j & Hj & Hl & Hs).
      destruct (first_name _ _ _ Hl Hs) as [(op & Hin & Hle & Ho & En & H)|[(op & Hin & Hle & Ho & En & H)|(Hin & En & H)]]; [rewrite (rul_complete _ _ _ _ H) in Hk; discriminate..|].
      apply Hinj in En; [|lia..]. assert (S j = i) as <- by lia.
      assert (Hlk : look j c x).
      { destruct HI as (y & Hy & _ & j' & Hj' & Hl' & _ & H1). rewrite (lev_fun _ _ _ Hl Hl'). rewrite (tok_fun _ _ _ Htk Hy). exact H1. }
      destruct Hc' as (-> & j' & Hj' & Hl' & Hs'). destruct (name_next _ _ _ _ Hl' Hs' Hx) as (Hi & Ho & [(HL & En' & H1)|(HL & En' & H1)]); apply Hinj in En'; try lia; subst.
      + destruct (look_op _ _ _ _ _ _ _ Hc Hlk Hi Ho H1 ltac:(simpl; auto)) as [[G _]|[G _]]; lia.
      + injection En' as <-. destruct (look_op _ _ _ _ _ _ _ Hc Hlk Hi Ho H1 ltac:(simpl; auto)) as [[_ G]|[G _]]; [congruence|lia].
    - destruct Hcore as [-> ->], Hc' as [-> ->]. eapply complete_no; eauto.
  Qed.

  Theorem states_settled I : lr_state g F I -> forall p d p' d' k, wants g F (lalr_of g F I) p d k -> wants g F (lalr_of g F I) p' d' k -> (p, d) = (p', d').
  Proof using W Hplain HR HR' HU Hinj Hnd Hterm Hfresh.
    intros HI p d p' d' k H H'. destruct (states_shaped _ HI) as (s & c & V & Hc & EI).
    assert (G : forall p d, (exists k, lalr_of g F I p d k) -> core s p d).
    { intros p0 d0 (k0 & I' & HI' & Hsc & H0). destruct (shaped_core _ _ _ _ EI V Hc (states_shaped _ HI') Hsc) as (c' & Hc' & EI').
      eapply (sset_core s c'); eauto. apply EI', H0. }
    assert (R : forall p d p' d', complete g p d -> lalr_of g F I p d k ->
      (exists x, sym_at g p' d' x /\ terminal x /\ tok g k x /\ (exists k', lalr_of g F I p' d' k') /\ found g F (lalr_of g F I) x) -> False).
    { intros p0 d0 p1 d1 Hk (I' & HI' & Hsc & H0) (x & Hx & Ht & Htk & H1 & _). destruct (shaped_core _ _ _ _ EI V Hc (states_shaped _ HI') Hsc) as (c' & Hc' & EI').
      apply EI' in H0. eapply (no_shift s c'); eauto. }
    destruct H as [[Hk H]|H], H' as [[Hk' H']|H'].
    - destruct (one_complete s p d p' d' V) as [-> ->]; auto; apply G; eauto.
    - destruct (R _ _ _ _ Hk H H').
    - destruct (R _ _ _ _ Hk' H' H).
    - destruct H as (x & Hx & Ht & Htk & _), H' as (x' & Hx' & _ & Htk' & _). rewrite (tok_fun _ _ _ Htk' Htk) in Hx'.
      destruct (one_place _ _ _ _ _ Hx Hx' Ht) as [-> ->]. reflexivity.
  Qed.

  (** ** What else can go wrong *)

  Lemma body_names p pr B : nth_error (g_prods g) p = Some pr -> In (SNon B) (p_syms pr) -> exists i, i <= n /\ B = E i.
  Proof using W HR Hterm.
    intros Hp Hi. destruct (Nat.eq_dec p 0) as [->|H0].
    - rewrite (wg_prod0 _ _ W) in Hp. injection Hp as <-. destruct Hi as [Hi|[]]. exists 0. split; [lia|congruence].
    - pose proof (HR _ _ Hp H0) as HL. remember (p_name pr) as A. remember (p_syms pr) as b. destruct HL as [j op Hj Hl Ho|j op Hj Hl Ho|j Hj| |a Ha]; cbn [In] in Hi.
      + destruct Hi as [Hi|[Hi|[Hi|[]]]]; [exists j|exfalso; eapply (token_term op); [eapply op_token; eauto|exact Hi]|exists (S j)]; split; try lia; congruence.
      + destruct Hi as [Hi|[Hi|[Hi|[]]]]; [exists (S j)|exfalso; eapply (token_term op); [eapply op_token; eauto|exact Hi]|exists j]; split; try lia; congruence.
      + destruct Hi as [Hi|[]]; exists (S j); split; try lia; congruence.
      + destruct Hi as [Hi|[Hi|[Hi|[]]]]; [exfalso; eapply (token_term (ly_open L)); [left; reflexivity|exact Hi]|exists 0; split; [lia|congruence]|exfalso; eapply (token_term (ly_close L)); [right; left; reflexivity|exact Hi]].
      + destruct Hi as [Hi|[]]. exfalso. eapply token_term; [apply atom_token, Ha|exact Hi].
  Qed.
  Lemma level_rule i : i <= n -> exists b, lrule L (E i) b.
  Proof.
    intros Hi. assert (D : i < n \/ i = n) by lia. destruct D as [D| ->]; [exists [SNon (E (S i))]; apply lr_pass, D|exists [ly_open L; SNon (E 0); ly_close L]; apply lr_paren].
  Qed.
  (** What follows a name in a rule is a terminal. *)
  Lemma after_name p pr d B x : nth_error (g_prods g) p = Some pr -> nth_error (p_syms pr) d = Some (SNon B) -> nth_error (p_syms pr) (S d) = Some x -> terminal x.
  Proof using W HR Hterm.
    intros Hp Hd Hx. destruct (Nat.eq_dec p 0) as [->|H0].
    - rewrite (wg_prod0 _ _ W) in Hp. injection Hp as <-. destruct d; discriminate.
    - pose proof (HR _ _ Hp H0) as HL. remember (p_name pr) as A. remember (p_syms pr) as b.
      destruct HL as [j op Hj Hl Ho|j op Hj Hl Ho|j Hj| |a Ha].
      + destruct d as [|[|d]]; cbn [nth_error] in *; [injection Hx as <-; apply token_term; eapply op_token; eauto| |destruct d; discriminate].
        injection Hd as Hd. exfalso. eapply (token_term op); [eapply op_token; eauto|exact Hd].
      + destruct d as [|[|d]]; cbn [nth_error] in *; [injection Hx as <-; apply token_term; eapply op_token; eauto| |destruct d; discriminate].
        injection Hd as Hd. exfalso. eapply (token_term op); [eapply op_token; eauto|exact Hd].
      + destruct d; discriminate.
      + destruct d as [|[|d]]; cbn [nth_error] in *; [|injection Hx as <-; apply token_term; right; left; reflexivity|destruct d; discriminate].
        injection Hd as Hd. exfalso. eapply (token_term (ly_open L)); [left; reflexivity|exact Hd].
      + destruct d; discriminate.
  Qed.

  (** ** Trees and expressions *)

  Lemma root_leaf t x : root g t = Some x -> terminal x -> t = Leaf x.
  Proof. destruct t as [y|p ts]; cbn [root]; [congruence|]. destruct (nth_error (g_prods g) p); [|discriminate]. intros H Ht. injection H as <-. destruct (Ht _ eq_refl). Qed.
  Lemma root_node t A : root g t = Some (SNon A) -> tree_ok g t -> exists p ts, t = Node p ts.
  Proof. destruct t as [y|p ts]; eauto. cbn [root]. intros H Ho. injection H as ->. apply tree_ok_leaf in Ho. destruct (Ho _ eq_refl). Qed.

  Lemma tree_in tr : forall i, i <= n -> tree_ok g tr -> root g tr = Some (SNon (E i)) -> exists e, means tr e /\ proper L i e /\ yield tr = written L e.
  Proof using W HR Hinj Hterm Hfresh.
    induction tr as [y|p ts IH] using tree_ind'; intros i Hi Ho Hr.
    { cbn [root] in Hr. injection Hr as ->. apply tree_ok_leaf in Ho. destruct (Ho _ eq_refl). }
    apply tree_ok_node in Ho as (pr & Hp & Hts & Hm). cbn [root] in Hr. rewrite Hp in Hr. injection Hr as Hr.
    pose proof (names_lev _ _ _ Hi Hp Hr) as [H0 _]. pose proof (HR _ _ Hp H0) as HL. rewrite Hr in HL. clear Hr Hp.
    remember (E i) as A eqn:EA. destruct HL as [j op Hj Hl Hop|j op Hj Hl Hop|j Hj| |a Ha]; (apply Hinj in EA; [|lia|lia]); subst; cbn [map] in Hm.
    - destruct ts as [|t1 [|t2 [|t3 [|t4 ts]]]]; try discriminate Hm. injection Hm as M1 M2 M3.
      apply root_leaf in M2; [|apply token_term; eapply op_token; eauto]. subst t2.
      inversion IH as [|? ? I1 IH2]; subst. inversion IH2 as [|? ? _ IH3]; subst. inversion IH3 as [|? ? I3 _]; subst.
      inversion Hts as [|? ? O1 O]; subst. inversion O as [|? ? _ O']; subst. inversion O' as [|? ? O3 _]; subst.
      destruct (I1 _ Hi O1 M1) as (e1 & G1 & G2 & G3), (I3 (S i) ltac:(lia) O3 M3) as (e3 & G4 & G5 & G6).
      exists (EBin op e1 e3). split; [constructor; auto|]. split; [apply (pr_left L i i); auto|]. cbn [yield flat_map written app]. rewrite G3, G6, app_nil_r. reflexivity.
    - destruct ts as [|t1 [|t2 [|t3 [|t4 ts]]]]; try discriminate Hm. injection Hm as M1 M2 M3.
      apply root_leaf in M2; [|apply token_term; eapply op_token; eauto]. subst t2.
      inversion IH as [|? ? I1 IH2]; subst. inversion IH2 as [|? ? _ IH3]; subst. inversion IH3 as [|? ? I3 _]; subst.
      inversion Hts as [|? ? O1 O]; subst. inversion O as [|? ? _ O']; subst. inversion O' as [|? ? O3 _]; subst.
      destruct (I1 (S i) ltac:(lia) O1 M1) as (e1 & G1 & G2 & G3), (I3 _ Hi O3 M3) as (e3 & G4 & G5 & G6).
      exists (EBin op e1 e3). split; [constructor; auto|]. split; [apply (pr_right L i i); auto|]. cbn [yield flat_map written app]. rewrite G3, G6, app_nil_r. reflexivity.
    - destruct ts as [|t1 [|t2 ts]]; try discriminate Hm. injection Hm as M1.
      inversion IH as [|? ? I1 _]; subst. inversion Hts as [|? ? O1 _]; subst.
      destruct (I1 (S i) ltac:(lia) O1 M1) as (e1 & G1 & G2 & G3). destruct (root_node _ _ M1 O1) as (q & us & ->).
      exists e1. split; [constructor; auto|]. split; [|cbn [yield flat_map] in *; rewrite app_nil_r; exact G3].
      clear -G2. remember (S i) as k eqn:Ek. destruct G2 as [k a Ha|k e He|k j op e1 e2 Hj|k j op e1 e2 Hj]; [apply pr_atom; auto|apply pr_paren; auto|apply (pr_left L i j); auto; lia|apply (pr_right L i j); auto; lia].
    - destruct ts as [|t1 [|t2 [|t3 [|t4 ts]]]]; try discriminate Hm. injection Hm as M1 M2 M3.
      apply root_leaf in M1; [|apply token_term; left; reflexivity]. apply root_leaf in M3; [|apply token_term; right; left; reflexivity]. subst t1 t3.
      inversion IH as [|? ? _ IH2]; subst. inversion IH2 as [|? ? I2 _]; subst. inversion Hts as [|? ? _ O]; subst. inversion O as [|? ? O2 _]; subst.
      destruct (I2 0 ltac:(lia) O2 M2) as (e & G1 & G2 & G3). exists (EParen e). split; [constructor; auto|]. split; [apply pr_paren, G2|].
      cbn [yield flat_map written app]. rewrite G3. reflexivity.
    - destruct ts as [|t1 [|t2 ts]]; try discriminate Hm. injection Hm as M1. apply root_leaf in M1; [|apply token_term, atom_token, Ha]. subst t1.
      exists (EAtom a). split; [constructor|]. split; [apply pr_atom, Ha|reflexivity].
  Qed.

  Definition has_tree (i : nat) (e : expr) : Prop := exists p ts, tree_ok g (Node p ts) /\ root g (Node p ts) = Some (SNon (E i)) /\ means (Node p ts) e /\ yield (Node p ts) = written L e.
  Lemma node_ok A b ts : lrule L A b -> Forall (tree_ok g) ts -> map (root g) ts = map Some b -> exists p, tree_ok g (Node p ts) /\ root g (Node p ts) = Some (SNon A).
  Proof using HR'.
    intros H Ho Hm. destruct (HR' _ _ H) as (p & pr & _ & Hp & <- & <-). exists p. split; [econstructor; eauto|]. cbn [root]. rewrite Hp. reflexivity.
  Qed.
  Lemma tree_up j e : j <= n -> has_tree j e -> forall i, i <= j -> has_tree i e.
  Proof using HR'.
    intros Hj H i Hi. remember (j - i) as t eqn:Et. revert i Hi Et. induction t as [|t IH]; intros i Hi Et; [replace i with j by lia; exact H|].
    destruct (IH (S i) ltac:(lia) ltac:(lia)) as (p & ts & Ho & Hr & Hm & Hy).
    destruct (node_ok _ _ [Node p ts] (lr_pass L i ltac:(lia))) as (q & Ho' & Hr'); [constructor; auto|cbn [map]; rewrite Hr; reflexivity|].
    exists q, [Node p ts]. split; auto. split; auto. split; [constructor; auto|]. cbn [yield flat_map] in *. rewrite app_nil_r. exact Hy.
  Qed.
  Lemma tree_out i e : proper L i e -> i <= n -> has_tree i e.
  Proof using HR' Hterm.
    induction 1 as [i a Ha|i e He IH|i j op e1 e2 Hij Hj Hl Hop H1 IH1 H2 IH2|i j op e1 e2 Hij Hj Hl Hop H1 IH1 H2 IH2]; intros Hi.
    - apply (tree_up n); auto. destruct (node_ok _ _ [Leaf a] (lr_atom L a Ha)) as (p & Ho & Hr); [|reflexivity|].
      { constructor; [|constructor]. constructor. apply token_term, atom_token, Ha. }
      exists p, [Leaf a]. split; auto. split; auto. split; [constructor|reflexivity].
    - apply (tree_up n); auto. destruct (IH ltac:(lia)) as (q & us & Ho1 & Hr1 & Hm1 & Hy1).
      destruct (node_ok _ _ [Leaf (ly_open L); Node q us; Leaf (ly_close L)] (lr_paren L)) as (p & Ho & Hr).
      { repeat constructor; auto; apply token_term; [left|right; left]; reflexivity. }
      { cbn [map]. rewrite Hr1. reflexivity. }
      exists p, [Leaf (ly_open L); Node q us; Leaf (ly_close L)]. split; auto. split; auto. split; [constructor; auto|]. cbn [yield flat_map app written] in *. rewrite Hy1. reflexivity.
    - apply (tree_up j); auto; [lia|]. destruct (IH1 ltac:(lia)) as (q1 & us1 & Ho1 & Hr1 & Hm1 & Hy1), (IH2 ltac:(lia)) as (q2 & us2 & Ho2 & Hr2 & Hm2 & Hy2).
      destruct (node_ok _ _ [Node q1 us1; Leaf op; Node q2 us2] (lr_left L j op Hj Hl Hop)) as (p & Ho & Hr).
      { repeat constructor; auto. apply token_term. eapply op_token; eauto. }
      { cbn [map]. rewrite Hr1, Hr2. reflexivity. }
      exists p, [Node q1 us1; Leaf op; Node q2 us2]. split; auto. split; auto. split; [constructor; auto|]. cbn [yield flat_map app written] in *. rewrite Hy1, Hy2, app_nil_r. reflexivity.
    - apply (tree_up j); auto; [lia|]. destruct (IH1 ltac:(lia)) as (q1 & us1 & Ho1 & Hr1 & Hm1 & Hy1), (IH2 ltac:(lia)) as (q2 & us2 & Ho2 & Hr2 & Hm2 & Hy2).
      destruct (node_ok _ _ [Node q1 us1; Leaf op; Node q2 us2] (lr_right L j op Hj Hl Hop)) as (p & Ho & Hr).
      { repeat constructor; auto. apply token_term. eapply op_token; eauto. }
      { cbn [map]. rewrite Hr1, Hr2. reflexivity. }
      exists p, [Node q1 us1; Leaf op; Node q2 us2]. split; auto. split; auto. split; [constructor; auto|]. cbn [yield flat_map app written] in *. rewrite Hy1, Hy2, app_nil_r. reflexivity.
  Qed.
End Layers.

Lemma means_fun t e e' : means t e -> means t e' -> e = e'.
Proof.
  intros H. revert e'. induction H as [p a|p q ts e H IH|p x t y e H IH|p t1 op t2 e1 e2 H1 IH1 H2 IH2]; intros e' H'.
  - inversion H'; subst; reflexivity.
  - inversion H'; subst; auto.
  - inversion H' as [| | ? ? ? ? e0 H0|? ? ? ? ? ? H0 _]; subst; [f_equal; auto|]. inversion H0.
  - inversion H' as [| | ? ? ? ? e0 H0|? ? ? ? ? ? H3 H4]; subst; [inversion H1|f_equal; auto].
Qed.
