(** Proofs for C86. *)
From Verif Require Import Base Grammar GrammarSpec GrammarProofs First Item ItemSpec ItemProofs Table TableSpec TableFacts Parse ParseSpec TreeFacts IsoSpec Iso
  LayerProofs MixSpec MixProofs MixEvalSpec MixUseSpec.

Lemma mexp_ind' (P : mexp -> Prop) : (forall s i f es, Forall P es -> P (MOp s i f es)) -> forall e, P e.
Proof.
  intros H. fix IH 1. intros [s i f es]. apply H. induction es as [|e es IHes]; constructor; auto.
Qed.

(** ** Lengths *)

Lemma Forall2_len {A B} (R : A -> B -> Prop) l l' : Forall2 R l l' -> length l = length l'.
Proof. induction 1; cbn [length]; auto. Qed.

Lemma holes_le l : length (holes l) <= length l.
Proof. unfold holes. induction l as [|[t|s i] l IH]; cbn [flat_map app length]; lia. Qed.
Lemma fill_length l : forall ws, length (holes l) = length ws -> length (fill l ws) + length (holes l) = list_sum (map (@length sym) ws) + length l.
Proof.
  induction l as [|[t|s i] l IH]; intros ws Hl.
  - destruct ws; [reflexivity|discriminate].
  - change (holes (Tok t :: l)) with (holes l) in *. cbn [length fill]. rewrite Nat.add_succ_l, IH; auto.
  - change (holes (Arg s i :: l)) with ((s, i) :: holes l) in *. destruct ws as [|w ws]; [discriminate|]. cbn [length fill] in *. rewrite app_length. injection Hl as Hl. specialize (IH _ Hl).
    cbn [map list_sum fold_right]. unfold list_sum in IH. lia.
Qed.
Lemma form_tok M s i f : S (length (holes (form_slots M s i f))) <= length (form_slots M s i f).
Proof.
  pose proof holes_le as Hle.
  unfold form_slots, holes. rewrite flat_map_app. cbn [flat_map app]. rewrite !app_length. cbn [length].
  set (r := flat_map piece_slots _ ++ _). pose proof (Hle r) as H. unfold holes in H. destruct (fm_l f); cbn [flat_map app length]; lia.
Qed.

(** Every operator has a terminal of its own. *)
Lemma written_size M e : forall s i, mproper M s i e -> msize e <= length (mwritten M e).
Proof.
  induction e as [s j f es IH] using mexp_ind'. intros s0 i H. inversion H as [? ? ? ? ? Hi Hf HF]; subst. cbn [mwritten msize].
  assert (HL : length (holes (form_slots M s j f)) = length (map (mwritten M) es)) by (rewrite map_length; eapply Forall2_len; eauto).
  pose proof (fill_length _ _ HL) as Hfl. pose proof (form_tok M s j f) as Hk. rewrite map_map in Hfl.
  assert (G : list_sum (map msize es) <= list_sum (map (fun x => length (mwritten M x)) es)); [|lia].
  clear Hk H HL Hfl. revert IH HF. generalize (holes (form_slots M s j f)) as hs. induction es as [|e es IHes]; intros hs IH HF; [cbn; lia|].
  inversion HF as [|h e' hs' es' Hh HF']; subst. inversion IH as [|? ? IH1 IH2]; subst. cbn [map list_sum fold_right].
  specialize (IHes _ IH2 HF'). specialize (IH1 _ _ Hh). unfold list_sum in IHes. lia.
Qed.
(** The rules used are at most one more than the highest level for each operator. *)
Lemma rules_size M K e : (forall s, s < mx_sorts M -> mx_top M s <= K) -> forall s i, mproper M s i e -> rules_used M e i <= (K + 1) * msize e.
Proof.
  intros HK. induction e as [s j f es IH] using mexp_ind'. intros s0 i H. inversion H as [? ? ? ? ? Hi Hf HF]; subst. cbn [rules_used msize].
  destruct Hf as (Hs & Hj & _). specialize (HK s Hs).
  assert (G : list_sum (map (fun x => fst x (snd (snd x))) (combine (map (rules_used M) es) (holes (form_slots M s j f)))) <= (K + 1) * list_sum (map msize es)); [|lia].
  clear H. revert IH HF. generalize (holes (form_slots M s j f)) as hs. induction es as [|e es IHes]; intros hs IH HF; [cbn; lia|].
  inversion HF as [|h e' hs' es' Hh HF']; subst. inversion IH as [|? ? IH1 IH2]; subst. cbn [map list_sum fold_right combine fst snd].
  specialize (IHes _ IH2 HF'). specialize (IH1 _ _ Hh). unfold list_sum in *. lia.
Qed.

(** ** Brackets *)

Section Brackets.
  Variable M : mix.
  Variable br : nat -> form.
  Hypothesis OK : mix_ok M.
  Hypothesis Hbr : forall s, s < mx_sorts M -> brackets M s (br s).

  Lemma br_holes s i : s < mx_sorts M -> holes (form_slots M s i (br s)) = [(s, 0)].
  Proof using Hbr.
    intros Hs. destruct (Hbr s Hs) as (_ & Hl & Hr & t & Et). unfold form_slots. rewrite Hl, Hr, Et. reflexivity.
  Qed.
  (** Brackets where the level is too low, and only there. *)
  Lemma bracketed e : forall s i, well_sorted M s e -> i <= mx_top M s -> exists e', adds br M e e' /\ mproper M s i e' /\ (mproper M s i e -> e' = e).
  Proof using OK Hbr.
    induction e as [s j f es IH] using mexp_ind'. intros s0 i H Hi. inversion H as [? ? ? ? Hf HF]; subst.
    assert (G : exists es', Forall2 (adds br M) es es' /\ Forall2 (fun h e => mproper M (fst h) (snd h) e) (holes (form_slots M s j f)) es' /\
      (Forall2 (fun h e => mproper M (fst h) (snd h) e) (holes (form_slots M s j f)) es -> es' = es)).
    { assert (Hh : forall h, In h (holes (form_slots M s j f)) -> snd h <= mx_top M (fst h)).
      { intros [a b] Hab. unfold holes in Hab. apply in_flat_map in Hab as (x & Hx & Hab). pose proof (mk_slots _ OK _ _ _ Hf x Hx) as Hk.
        destruct x as [t|a' b']; [destruct Hab|]. destruct Hab as [Hab|[]]. injection Hab as <- <-. apply Hk. }
      clear H Hf. revert IH HF Hh. generalize (holes (form_slots M s j f)) as hs. induction es as [|e es IHes]; intros hs IH HF Hh.
      - exists []. inversion HF; subst. auto.
      - inversion HF as [|h e' hs' es' H1 HF']; subst. inversion IH as [|? ? IH1 IH2]; subst.
        destruct (IHes _ IH2 HF') as (es1 & A1 & A2 & A3); [intros; apply Hh; right; auto|].
        destruct (IH1 (fst h) (snd h) H1) as (e1 & B1 & B2 & B3); [apply Hh; left; auto|].
        exists (e1 :: es1). split; [auto|]. split; [auto|]. intros HP. inversion HP; subst. f_equal; auto. }
    destruct G as (es' & G1 & G2 & G3). destruct (le_lt_dec i j) as [D|D].
    - exists (MOp s j f es'). split; [constructor; auto|]. split; [constructor; auto|]. intros HP. inversion HP; subst. f_equal. auto.
    - pose proof Hf as (Hs & _). exists (MOp s (mx_top M s) (br s) [MOp s j f es']). split; [apply ad_br; constructor; auto|]. split.
      + constructor; [exact Hi|apply (Hbr s Hs)|]. rewrite br_holes by auto. constructor; [|constructor]. cbn [fst snd]. constructor; [lia|auto..].
      + intros HP. inversion HP; subst. lia.
  Qed.
End Brackets.

(** ** States *)

Lemma rel_count {A} (R : nat -> A -> Prop) U n : (forall i, i < n -> exists x, In x U /\ R i x) ->
  (forall i j x, i < n -> j < n -> R i x -> R j x -> i = j) -> n <= length U.
Proof.
  intros H Hinj.
  assert (G : forall m, m <= n -> exists l, length l = m /\ NoDup l /\ incl l U /\ forall x, In x l -> exists i, i < m /\ R i x).
  { induction m as [|m IH]; intros Hm; [exists []; repeat split; [constructor|intros x []|intros x []]|].
    destruct IH as (l & E & HN & HI & HR); [lia|]. destruct (H m Hm) as (x & Hx & Hr). exists (x :: l). split; [cbn; lia|]. split; [|split].
    - constructor; [|auto]. intros Hin. destruct (HR _ Hin) as (i & Hi & Hri). assert (i = m) by (eapply Hinj; eauto; lia). lia.
    - intros y [<-|Hy]; auto.
    - intros y [<-|Hy]; [exists m; split; [lia|auto]|]. destruct (HR _ Hy) as (i & Hi & Hri). exists i. split; [lia|auto]. }
  destruct (G n (le_n n)) as (l & E & HN & HI & _). rewrite <- E. apply NoDup_incl_length; auto.
Qed.

Definition positions (g : grammar) : list (nat * nat) :=
  (0, 0) :: flat_map (fun x => map (pair (fst x)) (seq 1 (length (p_syms (snd x))))) (combine (seq 0 (length (g_prods g))) (g_prods g)).
Lemma positions_length g : length (positions g) = S (list_sum (map (fun p => length (p_syms p)) (g_prods g))).
Proof.
  unfold positions. cbn [length]. f_equal. set (F := fun x : nat * production => _). generalize 0 as a. induction (g_prods g) as [|p l IH]; intros a; [reflexivity|].
  cbn [length seq combine flat_map map list_sum fold_right]. rewrite app_length, IH. unfold F. rewrite map_length, seq_length. reflexivity.
Qed.
Lemma positions_in g q d x : sym_at g q d x -> In (q, S d) (positions g).
Proof.
  intros (pr & Hp & Hd). right. apply in_flat_map. exists (q, pr). split.
  - assert (Hq : q < length (g_prods g)) by (apply nth_error_Some; congruence).
    assert (E : nth_error (combine (seq 0 (length (g_prods g))) (g_prods g)) q = Some (q, pr)).
    { clear x Hd. replace (Some (q, pr)) with (Some (0 + q, pr)) by reflexivity. revert q Hp Hq. generalize 0 as a. induction (g_prods g) as [|p l IH]; intros a q Hp Hq; [cbn in Hq; lia|].
      destruct q as [|q]; [cbn in Hp |- *; rewrite Nat.add_0_r; congruence|]. cbn [length seq combine nth_error] in *. rewrite (IH (S a) q Hp) by lia. f_equal. f_equal. lia. }
    eapply nth_error_In; eauto.
  - cbn [fst snd]. apply in_map. apply in_seq. assert (d < length (p_syms pr)) by (apply nth_error_Some; congruence). lia.
Qed.

Section States.
  Variables (g : grammar) (M : mix).
  Notation E := (mx_name M).
  Notation top := (mx_top M).
  Hypothesis W : wf_grammar g (E 0 0).
  Hypothesis Hfresh : forall s i, s < mx_sorts M -> i <= top s -> aug_name (E 0 0) <> E s i.
  Hypothesis HR : forall p pr, nth_error (g_prods g) p = Some pr -> p <> 0 -> mrule M (p_name pr) (p_syms pr).
  Hypothesis HR' : forall A b, mrule M A b -> exists p pr, p <> 0 /\ nth_error (g_prods g) p = Some pr /\ p_name pr = A /\ p_syms pr = b.
  Hypothesis HU : forall p q pp pq, p <> 0 -> q <> 0 -> nth_error (g_prods g) p = Some pp -> nth_error (g_prods g) q = Some pq ->
    p_name pp = p_name pq -> p_syms pp = p_syms pq -> p = q.
  Hypothesis OK : mix_ok M.

  (** The position that stands for a state. *)
  Definition rep (z : sh) (x : nat * nat) : Prop :=
    match z with
    | ShT q e => x = (q, e)
    | ShB q e => x = (q, S e)
    | ShP s i => exists p, p <> 0 /\ x = (p, 1) /\ sym_at g p 0 (SNon (E s i))
    end.
  Lemma rep_some z : valid g M z -> exists x, In x (positions g) /\ rep z x.
  Proof using W HR' OK.
    destruct z as [q e|q e|s i]; cbn [valid rep]; intros V.
    - exists (q, e). split; auto. destruct (tval_hot g M OK _ _ V) as [[-> ->]|(_ & d & x & -> & Hx & _)]; [left; auto|eapply positions_in; eauto].
    - exists (q, S e). split; auto. destruct V as (s & m & H). destruct (H SEof) as [c' K]. apply (kern_m g M W OK) in K as [_ K]. eapply positions_in; eauto.
    - destruct (HR' _ _ (mr_pass M s (i - 1) (proj1 V) ltac:(lia))) as (p & pr & H0 & Hp & _ & Es). replace (S (i - 1)) with i in Es by lia.
      assert (Hs : sym_at g p 0 (SNon (E s i))) by (exists pr; rewrite Es; auto). exists (p, 1). split; [eapply positions_in; eauto|]. exists p. auto.
  Qed.
  Lemma rep_inj z z' x : valid g M z -> valid g M z' -> rep z x -> rep z' x -> z = z'.
  Proof using W OK.
    assert (NT : forall q d B x, sym_at g q d (SNon B) -> sym_at g q d x -> terminal x -> False).
    { intros q d B y (pr & Hp & Hd) (pr' & Hp' & Hd') Ht. apply (Ht B). congruence. }
    assert (TB : forall q e q' e', valid g M (ShT q e) -> valid g M (ShB q' e') -> (q, e) = (q', S e') -> False).
    { intros q e q' e' V (s & m & H) Eq. injection Eq as -> ->. destruct (H SEof) as [c' K]. apply (kern_m g M W OK) in K as [_ K].
      destruct (tval_hot g M OK _ _ V) as [[_ E0]|(_ & d & y & E0 & Hy & Ht)]; [discriminate|]. injection E0 as <-. eauto. }
    assert (TP : forall q e s i, valid g M (ShT q e) -> rep (ShP s i) (q, e) -> False).
    { intros q e s i V (p & H0 & Eq & Hs). injection Eq as -> ->.
      destruct (tval_hot g M OK _ _ V) as [[_ E0]|(_ & d & y & E0 & Hy & Ht)]; [discriminate|]. injection E0 as <-. eauto. }
    assert (BP : forall q e s i, valid g M (ShB q e) -> rep (ShP s i) (q, S e) -> False).
    { intros q e s i (s0 & m & H) (p & H0 & Eq & Hs). injection Eq as -> ->. destruct (H SEof) as [c' K]. apply H0. eapply kern_e; eauto. }
    intros V V' R R'. destruct z as [q e|q e|s i], z' as [q' e'|q' e'|s' i'].
    - cbn [rep] in *. congruence.
    - exfalso. cbn [rep] in R, R'. subst x. eapply TB; eauto.
    - exfalso. cbn [rep] in R. subst x. eapply TP; eauto.
    - exfalso. cbn [rep] in R, R'. subst x. symmetry in R'. eapply (TB q' e' q e); eauto.
    - cbn [rep] in *. congruence.
    - exfalso. cbn [rep] in R. subst x. eapply BP; eauto.
    - exfalso. cbn [rep] in R'. subst x. eapply TP; eauto.
    - exfalso. cbn [rep] in R'. subst x. eapply BP; eauto.
    - destruct R as (p & _ & E1 & H1), R' as (p' & _ & E2 & H2). rewrite E1 in E2. injection E2 as <-. destruct H1 as (pr & Hp & Hd), H2 as (pr' & Hp' & Hd').
      assert (En : E s i = E s' i') by congruence. cbn [valid] in V, V'. destruct (mk_names _ OK s i s' i') as [-> ->]; auto; try lia; tauto.
  Qed.
End States.
