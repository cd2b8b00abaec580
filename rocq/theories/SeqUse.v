(** Proofs for C90. *)
From Verif Require Import Base Grammar GrammarSpec GrammarProofs First Item ItemSpec ItemProofs Table TableSpec TableFacts Parse ParseSpec TreeFacts IsoSpec Iso
  LayerProofs SeqSpec SeqProofs SeqEvalSpec SeqUseSpec.
From Verif Require MixUse.

Lemma lexp_ind' (P : lexp -> Prop) : (forall s i f ess, Forall (Forall P) ess -> P (LOp s i f ess)) -> forall e, P e.
Proof.
  intros H. fix IH 1. intros [s i f ess]. apply H. induction ess as [|es ess IHess]; constructor; [|exact IHess]. clear IHess. induction es as [|e es IHes]; constructor; auto.
Qed.

(** ** Lengths *)

Lemma join_length t ws : list_sum (map (@length sym) ws) <= length (join t ws).
Proof.
  induction ws as [|w [|w' ws] IH]; [cbn; lia|cbn; lia|]. change (join t (w :: w' :: ws)) with (w ++ t :: join t (w' :: ws)). rewrite app_length. cbn [map list_sum fold_right length] in *. unfold list_sum in IH. lia.
Qed.
Lemma concat_len (ws : list (list sym)) : length (concat ws) = list_sum (map (@length sym) ws).
Proof. induction ws as [|w ws IH]; [reflexivity|]. cbn [concat map list_sum fold_right]. rewrite app_length, IH. reflexivity. Qed.
Definition is_tok (x : slot) : bool := match x with Tok _ => true | _ => false end.
Lemma fill_length M l : forall wss, length (holes l) = length wss ->
  list_sum (map (fun ws => list_sum (map (@length sym) ws)) wss) + length (filter is_tok l) <= length (fill M l wss).
Proof.
  induction l as [|[t|s i|n] l IH]; intros wss Hl.
  - destruct wss; [cbn; lia|discriminate].
  - change (holes (Tok t :: l)) with (holes l) in *. cbn [length fill filter is_tok]. specialize (IH _ Hl). lia.
  - change (holes (Arg s i :: l)) with (HArg s i :: holes l) in *. destruct wss as [|w wss]; [discriminate|]. cbn [length fill filter is_tok] in *. injection Hl as Hl. specialize (IH _ Hl).
    rewrite app_length, concat_len. cbn [map list_sum fold_right] in *. unfold list_sum in *. lia.
  - change (holes (Lst n :: l)) with (HList n :: holes l) in *. destruct wss as [|w wss]; [discriminate|]. cbn [length fill filter is_tok] in *. injection Hl as Hl. specialize (IH _ Hl).
    rewrite app_length. pose proof (join_length (ls_sep M n) w). cbn [map list_sum fold_right] in *. unfold list_sum in *. lia.
Qed.
Lemma form_tok M s i f : 1 <= length (filter is_tok (form_slots M s i f)).
Proof. unfold form_slots. rewrite filter_app. cbn [filter is_tok]. rewrite app_length. cbn [length]. lia. Qed.
Lemma fills_in M h es e : fills M h es -> In e es -> exists s i, lproper M s i e.
Proof.
  intros H. induction H as [s i e0 H|n e0 H|n es e0 H IH H1]; intros Hi; [destruct Hi as [<-|[]]; eauto..|]. apply in_app_or in Hi as [Hi|[<-|[]]]; eauto.
Qed.
Lemma sums_le {A} (f g : A -> nat) l : (forall x, In x l -> f x <= g x) -> list_sum (map f l) <= list_sum (map g l).
Proof.
  induction l as [|x l IH]; intros H; [cbn; lia|]. cbn [map list_sum fold_right]. pose proof (H x (or_introl eq_refl)). specialize (IH (fun y Hy => H y (or_intror Hy))). unfold list_sum in IH. lia.
Qed.
Lemma Forall2_right {A B} (R : A -> B -> Prop) l l' y : Forall2 R l l' -> In y l' -> exists x, In x l /\ R x y.
Proof. induction 1 as [|a b l l' H _ IH]; intros Hy; [destruct Hy|]. destruct Hy as [<-|Hy]; [exists a; split; [left|]; auto|]. destruct (IH Hy) as (x & Hx & Hr). exists x. split; [right|]; auto. Qed.

(** Every operator has a terminal of its own. *)
Lemma written_size M e : forall s i, lproper M s i e -> lsize e <= length (lwritten M e).
Proof.
  induction e as [s j f ess IH] using lexp_ind'. intros s0 i H. remember (LOp s j f ess) as e eqn:Ee. destruct H as [s1 i1 j1 f1 es1 Hi Hf HF]. injection Ee as -> -> -> ->. cbn [lwritten lsize].
  assert (HL : length (holes (form_slots M s j f)) = length (map (map (lwritten M)) ess)) by (rewrite map_length; eapply MixUse.Forall2_len; eauto).
  pose proof (fill_length M _ _ HL) as Hfl. pose proof (form_tok M s j f) as Hk. rewrite map_map in Hfl.
  assert (G : list_sum (map (fun es => list_sum (map lsize es)) ess) <= list_sum (map (fun x => list_sum (map (@length sym) (map (lwritten M) x))) ess)); [|lia].
  apply sums_le. intros es Hes. rewrite map_map. apply sums_le. intros e He. rewrite Forall_forall in IH. specialize (IH es Hes). rewrite Forall_forall in IH.
  destruct (Forall2_right _ _ _ _ HF Hes) as (h & _ & Hh). destruct (fills_in _ _ _ _ Hh He) as (s2 & i2 & Hp). exact (IH e He s2 i2 Hp).
Qed.
(** The rules used are at most two more than the highest level for each operator. *)
Lemma rules_size M K e : (forall s, s < lg_sorts M -> lg_top M s <= K) -> forall s i, lproper M s i e -> lrules_used M e i < (K + 2) * lsize e.
Proof.
  intros HK. induction e as [s j f ess IH] using lexp_ind'. intros s0 i H. remember (LOp s j f ess) as e eqn:Ee. destruct H as [s1 i1 j1 f1 es1 Hi Hf HF]. injection Ee as -> -> -> ->. cbn [lrules_used lsize].
  destruct Hf as (Hs & Hj & _). specialize (HK s Hs).
  assert (G : list_sum (map (fun x => hole_rules (fst x) (snd x)) (combine (holes (form_slots M s j f)) (map (map (lrules_used M)) ess))) <= (K + 2) * list_sum (map (fun es => list_sum (map lsize es)) ess)); [|lia].
  revert IH HF. generalize (holes (form_slots M s j f)) as hs. induction ess as [|es ess IHess]; intros hs IH HF; [destruct hs; cbn; lia|].
  inversion HF as [|h e' hs' es' Hh HF']; subst. inversion IH as [|? ? IH1 IH2]; subst. cbn [map list_sum fold_right combine fst snd].
  specialize (IHess _ IH2 HF'). assert (G : hole_rules h (map (lrules_used M) es) <= (K + 2) * list_sum (map lsize es)); [|unfold list_sum in *; lia].
  clear -Hh IH1. induction Hh as [s i e H|n e H|n es e H IH H1].
  - inversion IH1 as [|? ? I1 _]; subst. specialize (I1 _ _ H). cbn [hole_rules map list_sum fold_right]. lia.
  - inversion IH1 as [|? ? I1 _]; subst. specialize (I1 _ _ H). cbn [hole_rules map list_sum fold_right]. lia.
  - apply Forall_app in IH1 as [I1 I2]. inversion I2 as [|? ? I3 _]; subst. specialize (IH I1). specialize (I3 _ _ H1). cbn [hole_rules] in *. rewrite !map_app, !list_sum_app. cbn [map list_sum fold_right] in *. lia.
Qed.

(** ** States *)

Section States.
  Variables (g : grammar) (M : lang).
  Notation E := (lg_name M).
  Notation top := (lg_top M).
  Hypothesis W : wf_grammar g (E 0 0).
  Hypothesis Hfresh : forall s i, s < lg_sorts M -> i <= top s -> aug_name (E 0 0) <> E s i.
  Hypothesis Hfresh' : forall n, n < ls_count M -> aug_name (E 0 0) <> ls_name M n.
  Hypothesis HR : forall p pr, nth_error (g_prods g) p = Some pr -> p <> 0 -> lrule M (p_name pr) (p_syms pr).
  Hypothesis HR' : forall A b, lrule M A b -> exists p pr, p <> 0 /\ nth_error (g_prods g) p = Some pr /\ p_name pr = A /\ p_syms pr = b.
  Hypothesis HU : forall p q pp pq, p <> 0 -> q <> 0 -> nth_error (g_prods g) p = Some pp -> nth_error (g_prods g) q = Some pq ->
    p_name pp = p_name pq -> p_syms pp = p_syms pq -> p = q.
  Hypothesis OK : lang_ok M.

  (** The position that stands for a state. *)
  Definition rep (z : sh) (x : nat * nat) : Prop :=
    match z with
    | ShT q e => x = (q, e)
    | ShB q e => x = (q, S e)
    | ShP s i => exists p, p <> 0 /\ x = (p, 1) /\ sym_at g p 0 (SNon (E s i))
    | ShE n => exists p, lone g M p n /\ x = (p, 1)
    end.
  Lemma lone_sym p n : lone g M p n -> sym_at g p 0 (SNon (E (ls_sort M n) 0)).
  Proof. intros (_ & _ & pr & Hp & _ & Es). exists pr. rewrite Es. auto. Qed.
  Lemma rep_some z : valid g M z -> exists x, In x (MixUse.positions g) /\ rep z x.
  Proof using W HR' OK.
    destruct z as [q e|q e|s i|n]; intros V.
    - exists (q, e). split; [|reflexivity]. destruct (tval_hot g M OK _ _ V) as [[-> ->]|(_ & d & x & -> & Hx & _)]; [left; auto|eapply MixUse.positions_in; eauto].
    - exists (q, S e). split; [|reflexivity]. destruct (valid_B g M W OK _ _ V) as (_ & B & Hx). eapply MixUse.positions_in; eauto.
    - cbn [valid] in V. destruct (HR' _ _ (lr_pass M s (i - 1) (proj1 V) ltac:(lia))) as (p & pr & H0 & Hp & _ & Es). replace (S (i - 1)) with i in Es by lia.
      assert (Hs : sym_at g p 0 (SNon (E s i))) by (exists pr; rewrite Es; auto). exists (p, 1). split; [eapply MixUse.positions_in; eauto|]. exists p. auto.
    - cbn [valid] in V. destruct (lone_get g M HR' n V) as (p & Hp). exists (p, 1). split; [eapply MixUse.positions_in, lone_sym; eauto|]. exists p. auto.
  Qed.
  Lemma rep_inj z z' x : valid g M z -> valid g M z' -> rep z x -> rep z' x -> z = z'.
  Proof using W OK.
    assert (NT : forall q d B x, sym_at g q d (SNon B) -> sym_at g q d x -> terminal x -> False).
    { intros q d B y (pr & Hp & Hd) (pr' & Hp' & Hd') Ht. apply (Ht B). congruence. }
    assert (NN : forall q d B B', sym_at g q d (SNon B) -> sym_at g q d (SNon B') -> B = B').
    { intros q d B B' (pr & Hp & Hd) (pr' & Hp' & Hd'). congruence. }
    assert (TB : forall q e q' e', valid g M (ShT q e) -> valid g M (ShB q' e') -> (q, e) = (q', S e') -> False).
    { intros q e q' e' V V' Eq. injection Eq as -> ->. destruct (valid_B g M W OK _ _ V') as (_ & B & K).
      destruct (tval_hot g M OK _ _ V) as [[_ E0]|(_ & d & y & E0 & Hy & Ht)]; [discriminate|]. injection E0 as <-. eauto. }
    assert (TP : forall q e p B, valid g M (ShT q e) -> (q, e) = (p, 1) -> sym_at g p 0 (SNon B) -> False).
    { intros q e p B V Eq Hs. injection Eq as -> ->.
      destruct (tval_hot g M OK _ _ V) as [[_ E0]|(_ & d & y & E0 & Hy & Ht)]; [discriminate|]. injection E0 as <-. eauto. }
    assert (BP : forall q e p, valid g M (ShB q e) -> (q, S e) = (p, 1) -> p <> 0 -> False).
    { intros q e p V Eq Hp. injection Eq as -> ->. destruct (valid_B g M W OK _ _ V) as (T & _). destruct (tval_hot g M OK _ _ T) as [[-> _]|(_ & d & y & E0 & _)]; [auto|discriminate]. }
    assert (LO : forall n, n < ls_count M -> ls_sort M n < lg_sorts M) by (intros n Hn; apply (mk_list _ OK n Hn)).
    intros V V' R R'. destruct z as [q e|q e|s i|n], z' as [q' e'|q' e'|s' i'|n'].
    - cbn [rep] in *. congruence.
    - exfalso. cbn [rep] in R, R'. subst x. eapply TB; eauto.
    - exfalso. cbn [rep] in R. subst x. destruct R' as (p & H0 & Eq & Hs). eapply TP; eauto.
    - exfalso. cbn [rep] in R. subst x. destruct R' as (p & H0 & Eq). eapply TP; eauto using lone_sym.
    - exfalso. cbn [rep] in R, R'. subst x. symmetry in R'. eapply (TB q' e' q e); eauto.
    - cbn [rep] in *. congruence.
    - exfalso. cbn [rep] in R. subst x. destruct R' as (p & H0 & Eq & Hs). eapply BP; eauto.
    - exfalso. cbn [rep] in R. subst x. destruct R' as (p & (H0 & _) & Eq). eapply BP; eauto.
    - exfalso. cbn [rep] in R'. subst x. destruct R as (p & H0 & Eq & Hs). eapply TP; eauto.
    - exfalso. cbn [rep] in R'. subst x. destruct R as (p & H0 & Eq & Hs). eapply BP; eauto.
    - destruct R as (p & _ & E1 & H1), R' as (p' & _ & E2 & H2). rewrite E1 in E2. injection E2 as <-. pose proof (NN _ _ _ _ H1 H2) as En.
      cbn [valid] in V, V'. destruct (mk_names _ OK s i s' i') as [-> ->]; auto; try lia; tauto.
    - exfalso. destruct R as (p & _ & E1 & H1), R' as (p' & H2 & E2). rewrite E1 in E2. injection E2 as <-. pose proof (NN _ _ _ _ H1 (lone_sym _ _ H2)) as En.
      cbn [valid] in V, V'. destruct (mk_names _ OK s i (ls_sort M n') 0) as [_ H0]; auto; try lia; tauto.
    - exfalso. cbn [rep] in R'. subst x. destruct R as (p & H0 & Eq). eapply TP; eauto using lone_sym.
    - exfalso. cbn [rep] in R'. subst x. destruct R as (p & (H0 & _) & Eq). eapply BP; eauto.
    - exfalso. destruct R as (p & H1 & E1), R' as (p' & _ & E2 & H2). rewrite E1 in E2. injection E2 as <-. pose proof (NN _ _ _ _ (lone_sym _ _ H1) H2) as En.
      cbn [valid] in V, V'. destruct (mk_names _ OK (ls_sort M n) 0 s' i') as [_ H0]; auto; try lia; tauto.
    - destruct R as (p & H1 & E1), R' as (p' & H2 & E2). rewrite E1 in E2. injection E2 as <-. f_equal. apply (lst_fun g M OK p n n'); left; auto.
  Qed.
End States.
