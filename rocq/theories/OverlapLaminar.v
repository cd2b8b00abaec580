(** [remove_overlap] on families of ranges that are pairwise nested or disjoint, or where at least
    the first character of a range that overlaps another without being nested is in no third range of
    more than one character: the result is disjoint and refines every input range. *)
From Verif Require Import Base Regex Nfa Overlap OverlapProofs.
Local Open Scope N_scope.

(** ** The run does not depend on the fuel *)

Lemma nsteps_end_unique {S R} (step : S -> S + R) n m s t u r1 r2 :
  nsteps step n s t -> step t = inr r1 -> nsteps step m s u -> step u = inr r2 -> r1 = r2.
Proof.
  intros Hn E1. revert m. induction Hn as [s|n s s' s'' E Hn IH]; intros m Hm E2.
  - inversion Hm; subst; congruence.
  - inversion Hm; subst; try congruence.
    match goal with E' : step s = inl ?x, E'' : step s = inl ?y |- _ =>
      rewrite E'' in E'; injection E' as <- end.
    eapply IH; eauto.
Qed.

Lemma ar_run_step s s' : ar_ok s -> ar_step s = inl s' -> ar_run s = ar_run s'.
Proof.
  intros Hok E.
  destruct s as [[|[range start] work'] v]; [discriminate|].
  destruct (ar_step_next _ _ _ _ Hok) as (s0 & E0 & Hn). rewrite E0 in E; injection E as <-.
  pose proof (ar_next_ok _ _ _ _ _ Hok Hn) as Hok'.
  assert (G : forall t, ar_ok t -> exists n u r, nsteps ar_step n t u /\ ar_step u = inr r /\ ar_run t = r).
  { intros t Ht. destruct (ar_run_rule (fun _ => True) t Ht I) as (w & Ew & _); [auto|].
    unfold ar_run in *. pose proof (run_nsteps ar_step (S (N.size_nat (ar_measure t))) t) as Hr.
    destruct (run ar_step (S (N.size_nat (ar_measure t))) t) as [t'|r]; [discriminate|].
    destruct Hr as (n & u & _ & Hst & Eu). exists n, u, r. auto. }
  destruct (G _ Hok) as (n & u & r & H1 & H2 & H3).
  destruct (G _ Hok') as (m & w & r' & H4 & H5 & H6). rewrite H3, H6.
  eapply nsteps_end_unique; [exact H1|exact H2| |exact H5]. econstructor; eauto.
Qed.

Lemma ar_run_nil v : ar_run ([], v) = Ok v.
Proof.
  unfold ar_run. assert (H : forall b, run ar_step b ([], v) = inr (Ok v)).
  { induction b as [|b IH]; [reflexivity|].
    change (run ar_step (S b) ([], v)) with
      (match run ar_step b ([], v) with inl s' => run ar_step b s' | inr r => inr r end).
    rewrite IH; reflexivity. }
  rewrite H; reflexivity.
Qed.

(** ** Disjointness and order of lists of ranges *)

Definition disj (a b : rng) : Prop := intersects a b = false.
Lemma disj_sym a b : disj a b -> disj b a.
Proof. unfold disj. rewrite !intersects_false. lia. Qed.

Definition sub (r p : rng) : Prop := fst p <= fst r /\ snd r <= snd p.
Lemma disj_sub a b r : sub r a -> disj a b -> disj r b.
Proof. unfold sub, disj. rewrite !intersects_false. lia. Qed.

Fixpoint pd (v : list rng) : Prop :=
  match v with
  | [] => True
  | a :: v' => (forall b, In b v' -> disj a b) /\ pd v'
  end.

Lemma pd_app l1 l2 : pd (l1 ++ l2) <-> pd l1 /\ pd l2 /\ forall a b, In a l1 -> In b l2 -> disj a b.
Proof.
  induction l1 as [|x l1 IH]; simpl.
  - split; [intros H; split; auto; split; auto; intros a b []|tauto].
  - rewrite IH. split.
    + intros (H1 & H2 & H3 & H4). split; [split; auto using in_or_app|]. split; auto.
      intros a b [<-|Ha] Hb; auto using in_or_app.
    + intros ((H1 & H2) & H3 & H4). split; [|split; auto].
      intros b Hb. apply in_app_or in Hb as [Hb|Hb]; auto.
Qed.

(** Ascending ranges between [lo] and [hi]. *)
Fixpoint asc (lo : N) (ms : list rng) (hi : N) : Prop :=
  match ms with
  | [] => lo <= hi
  | m :: ms' => lo <= fst m /\ fst m < snd m /\ asc (snd m) ms' hi
  end.

Lemma asc_le lo ms hi : asc lo ms hi -> lo <= hi.
Proof.
  revert lo; induction ms as [|m ms IH]; intros lo; simpl; auto.
  intros (H1 & H2 & H3). apply IH in H3. lia.
Qed.

Lemma asc_In lo ms hi r : asc lo ms hi -> In r ms -> lo <= fst r /\ snd r <= hi.
Proof.
  revert lo; induction ms as [|m ms IH]; intros lo; simpl; [tauto|].
  intros (H1 & H2 & H3) [<-|Hin].
  - apply asc_le in H3. lia.
  - apply IH in H3; auto. lia.
Qed.

Lemma asc_snoc lo ms hi r : asc lo ms (fst r) -> fst r < snd r -> snd r <= hi -> asc lo (ms ++ [r]) hi.
Proof.
  revert lo; induction ms as [|m ms IH]; intros lo; simpl; [lia|].
  intros (H1 & H2 & H3) H4 H5. repeat split; auto.
Qed.

(** The ranges that meet [R] appear in increasing order. *)
Fixpoint ord (R : rng) (v : list rng) : Prop :=
  match v with
  | [] => True
  | a :: v' => (forall b, In b v' -> intersects a R = true -> intersects b R = true -> snd a <= fst b)
               /\ ord R v'
  end.

Lemma ord_app R l1 l2 : ord R (l1 ++ l2) <-> ord R l1 /\ ord R l2 /\
  forall a b, In a l1 -> In b l2 -> intersects a R = true -> intersects b R = true -> snd a <= fst b.
Proof.
  induction l1 as [|x l1 IH]; simpl.
  - split; [intros H; split; auto; split; auto; intros a b []|tauto].
  - rewrite IH. split.
    + intros (H1 & H2 & H3 & H4). split; [split; auto using in_or_app|]. split; auto.
      intros a b [<-|Ha] Hb; auto using in_or_app.
    + intros ((H1 & H2) & H3 & H4). split; [|split; auto].
      intros b Hb. apply in_app_or in Hb as [Hb|Hb]; auto.
Qed.

Lemma ord_asc R lo ms hi : asc lo ms hi -> ord R ms.
Proof.
  revert lo; induction ms as [|m ms IH]; intros lo; simpl; auto.
  intros (H1 & H2 & H3). split; [|eauto]. intros b Hb _ _.
  destruct (asc_In _ _ _ _ H3 Hb). auto.
Qed.

Lemma pd_asc lo ms hi : asc lo ms hi -> pd ms.
Proof.
  revert lo; induction ms as [|m ms IH]; intros lo; simpl; auto.
  intros (H1 & H2 & H3). split; [|eauto]. intros b Hb.
  destruct (asc_In _ _ _ _ H3 Hb). unfold disj. rewrite intersects_false. lia.
Qed.

Lemma ord_trivial R v : (forall a b, In a v -> In b v -> intersects a R = true ->
                           intersects b R = true -> disj a b -> False) -> pd v -> ord R v.
Proof.
  induction v as [|a v IH]; simpl; auto. intros H [Hd Hp]. split; [|apply IH; eauto].
  intros b Hb Ha Hb'. exfalso. eapply (H a b); eauto.
Qed.

Lemma update_split {A} (l1 l2 : list A) o x :
  update_nth (length l1) (fun _ => x) (l1 ++ o :: l2) = l1 ++ x :: l2.
Proof. induction l1; simpl; congruence. Qed.

(** ** Processed inputs and future inputs *)

Definition bnd (P : list rng) (b : N) : Prop :=
  exists p, In p P /\ fst p < snd p /\ (b = fst p \/ b = snd p).

Definition nested_or_disjoint (a b : rng) : Prop := disj a b \/ sub a b \/ sub b a.

(** [R] may come after the inputs [P]. *)
Definition After (P : list rng) (R : rng) : Prop :=
  fst R < snd R /\
  forall p, In p P -> fst p < snd p -> fst p < fst R \/ fst p = fst R /\ snd p < snd R.

Definition Fut (P : list rng) (R : rng) : Prop :=
  After P R /\
  forall p q, In p P -> In q P -> fst p < fst R -> fst R < snd p -> snd p < snd R ->
    fst q <= fst R < snd q -> q = p \/ snd q <= fst q + 1.

(** What a result range must satisfy with respect to the inputs. *)
Definition fine (P : list rng) (r : rng) : Prop :=
  fst r < snd r -> bnd P (fst r) /\ bnd P (snd r) /\ forall p, In p P -> disj r p \/ sub r p.

Lemma interior P R b : After P R -> bnd P b -> fst R < b < snd R ->
  exists p, In p P /\ fst p <= fst R < snd p /\ snd p = b.
Proof.
  intros [HR HF] (p & Hp & Hne & Hb) Hi. specialize (HF p Hp Hne).
  exists p. split; auto. destruct Hb as [-> | ->]; lia.
Qed.

Lemma covered_prefix P R c c' : After P R -> fst R <= c' <= c -> covered P c -> covered P c'.
Proof.
  intros [_ HF] Hc (p & Hp & Hpc). unfold inr_ in Hpc.
  assert (Ho := HF p Hp). exists p; split; auto. unfold inr_. lia.
Qed.

(** ** Inserting one range *)

Lemma find_first (f : rng -> bool) u start i o :
  nth_error u i = Some o -> f o = true -> (start <= i)%nat ->
  (forall k y, (start <= k < i)%nat -> nth_error u k = Some y -> f y = false) ->
  (forall r, In r (firstn start u) -> f r = false) ->
  exists u1 u2, u = u1 ++ o :: u2 /\ length u1 = i /\ forall r, In r u1 -> f r = false.
Proof.
  intros Hi Hf Hs Hk Hpre. apply nth_error_split in Hi as (u1 & u2 & E & Hl).
  exists u1, u2. repeat split; auto. intros r Hr.
  apply In_nth_error in Hr as [k Hk']. pose proof (nth_error_lt _ _ _ Hk') as Hlt.
  assert (Hk'' : nth_error u k = Some r) by (rewrite E, nth_error_app1; auto).
  destruct (Nat.lt_ge_cases k start) as [Hlt'|Hge].
  - apply Hpre. apply nth_error_In with k. clear - Hlt' Hk''. revert u start Hlt' Hk''.
    induction k as [|k IH]; intros [|y u] [|s] H1 H2; simpl in *; try lia; try discriminate; auto.
    apply IH; auto. lia.
  - apply (Hk k r); [lia|auto].
Qed.

Lemma bnd_cons P R b : bnd P b -> bnd (R :: P) b.
Proof. intros (p & H1 & H2). exists p; split; auto. right; auto. Qed.


Lemma ar_run_push r st work v : ar_ok ((r, st) :: work, v) -> fst r < snd r ->
  (forall y, In y v -> disj y r) -> ar_run ((r, st) :: work, v) = ar_run (work, v ++ [r]).
Proof.
  intros Hok Hne Hd. destruct (ar_step_next _ _ _ _ Hok) as (s' & Es & Hn).
  rewrite (ar_run_step _ _ Hok Es). inversion Hn; subst.
  - lia.
  - exfalso. apply nth_error_In in H. specialize (Hd _ H). unfold disj in Hd.
    rewrite intersects_false in Hd. lia.
  - reflexivity.
  - exfalso. apply nth_error_In in H. specialize (Hd _ H). unfold disj in Hd. congruence.
Qed.

Lemma ar_run_empty r st work v : ar_ok ((r, st) :: work, v) -> snd r <= fst r ->
  ar_run ((r, st) :: work, v) = ar_run (work, v).
Proof.
  intros Hok He. apply ar_run_step; auto. unfold ar_step.
  apply rng_empty_true in He. rewrite He. reflexivity.
Qed.

Ltac dlia := unfold disj, sub, low_part, mid_part, max_part in *;
  rewrite ?intersects_false, ?intersects_spec in *; cbn [fst snd] in *; lia.

(** Ranges disjoint from both halves are disjoint from the whole. *)
Lemma disj_join r a x b : a <= x <= b -> disj r (a, x) -> disj r (x, b) -> disj r (a, b).
Proof. intros; dlia. Qed.

Lemma covered_swap u1 u2 o x c : ~ inr_ o c -> ~ inr_ x c ->
  covered (u1 ++ o :: u2) c <-> covered (u1 ++ x :: u2) c.
Proof. rewrite !covered_app, !covered_cons. tauto. Qed.

Lemma fine_sub_old P R r o :
  (forall p, In p P -> disj o p \/ sub o p) -> sub r o -> (disj r R \/ sub r R) ->
  forall p, In p (R :: P) -> disj r p \/ sub r p.
Proof.
  intros Ho Hs HR p [<-|Hp]; auto. destruct (Ho p Hp) as [Hd|Hd].
  - left. eapply disj_sub; eauto.
  - right. unfold sub in *. lia.
Qed.

Lemma insert_laminar P R : After P R -> forall n x u mids st,
  fst R <= x < snd R -> (N.to_nat (snd R - x) <= n)%nat -> bnd (R :: P) x ->
  pd (u ++ mids) -> (st <= length u)%nat ->
  (forall r, In r u -> disj r (fst R, x)) ->
  asc (fst R) mids x ->
  ord R u ->
  (forall r, In r (firstn st u) -> disj r (x, snd R)) ->
  (forall c, x <= c < snd R -> (covered P c <-> covered u c)) ->
  (forall r, In r u -> fst r < snd r ->
     bnd P (fst r) /\ (snd r = fst R \/ bnd P (snd r)) /\ forall p, In p P -> disj r p \/ sub r p) ->
  (forall r, In r mids -> fine (R :: P) r) ->
  exists v' u' mids' tail, ar_run ([((x, snd R), st)], u ++ mids) = Ok v' /\
    v' = u' ++ mids' ++ tail /\ pd v' /\ asc (fst R) mids' (snd R) /\
    (forall r, In r v' -> fine (R :: P) r) /\
    (tail = [] \/ exists m, tail = [m] /\ fst m = snd R) /\
    (forall r, In r u' -> fst r < snd r ->
       bnd P (fst r) /\ (disj r R \/ bnd P (snd R))).
Proof.
  intros HR n. induction n as [|n IH]; intros x u mids st Hx Hn Hbx Hpd Hst Hux Hasc Hord Hpre Hcov Hu Hm;
    [lia|].
  set (rem := (x, snd R)) in *.
  assert (Hok : ar_ok ([(rem, st)], u ++ mids)).
  { intros r s0 [E|[]]. injection E as _ <-. simpl. rewrite app_length. lia. }
  destruct (ar_step_next _ _ _ _ Hok) as (s' & Es & Hnext).
  assert (HRne : fst R < snd R) by apply HR.
  assert (HbR1 : bnd (R :: P) (fst R)) by (exists R; split; [left; auto|auto]).
  assert (HbR2 : bnd (R :: P) (snd R)) by (exists R; split; [left; auto|auto]).
  assert (Hmr : forall r, In r mids -> disj r rem).
  { intros r Hr. destruct (asc_In _ _ _ _ Hasc Hr). unfold rem. dlia. }
  apply pd_app in Hpd as (Hpdu & Hpdm & Hpdum).
  (* the ranges of u that do not meet R are fine *)
  assert (Hfu : forall r, In r u -> disj r R -> fine (R :: P) r).
  { intros r Hr Hd Hne. destruct (Hu r Hr Hne) as (B1 & B2 & B3).
    split; [apply bnd_cons; auto|]. split; [destruct B2 as [->|B2]; auto using bnd_cons|].
    intros p [<-|Hp]; auto. }
  assert (HdR : forall r, In r u -> disj r rem -> disj r R).
  { intros r Hr Hd. specialize (Hux r Hr). unfold rem in Hd. destruct R as [a b]; simpl in *.
    eapply disj_join; eauto. lia. }
  rewrite (ar_run_step _ _ Hok Es).
  inversion Hnext as [He | i Hi Hne Hsi Hmin | Hne Hnone | i o Hi Hint Hor Hsi Hmin]; subst s'.
  - unfold rem in He; simpl in He; lia.
  - (* already present *)
    rewrite ar_run_nil. exists (u ++ mids), u, mids, []. split; [reflexivity|].
    assert (Hin : In rem u).
    { apply nth_error_In in Hi. apply in_app_or in Hi as [Hi|Hi]; auto.
      specialize (Hmr _ Hi). unfold rem in Hmr. exfalso; dlia. }
    assert (Hcase : forall r, In r u -> r = rem \/ disj r rem).
    { intros r Hr. apply in_split in Hin as (u1 & u2 & E). rewrite E in Hpdu, Hr.
      apply pd_app in Hpdu as (_ & Hp2 & Hp3). simpl in Hp2.
      apply in_app_or in Hr as [Hr|[Hr|Hr]]; auto.
      - right. apply Hp3; auto. left; reflexivity.
      - right. apply disj_sym, Hp2; auto. }
    destruct (Hu rem Hin) as (B1 & B2 & B3); [unfold rem; simpl; lia|].
    assert (B2' : bnd P (snd R)).
    { destruct B2 as [E|B2]; auto. unfold rem in E; simpl in E. lia. }
    split; [rewrite app_nil_r; reflexivity|]. split; [apply pd_app; auto|].
    split; [|split; [|split; [auto|]]].
    + clear - Hasc Hx. revert Hasc. generalize (fst R) as lo. induction mids as [|m ms IHm]; intros lo; simpl; [lia|].
      intros (H1 & H2 & H3); auto.
    + intros r Hr. apply in_app_or in Hr as [Hr|Hr]; auto.
      destruct (Hcase r Hr) as [->|Hd]; [|apply Hfu; auto].
      intros _. split; [exact Hbx|]. split; [exact HbR2|].
      intros p [<-|Hp]; auto. right. unfold sub, rem; simpl. lia.
    + intros r Hr Hrne. split; [apply Hu; auto|].
      destruct (Hcase r Hr) as [->|Hd]; auto.
  - (* no overlap: append *)
    rewrite ar_run_nil. exists ((u ++ mids) ++ [rem]), u, (mids ++ [rem]), []. split; [reflexivity|].
    assert (Hall : forall r, In r u -> disj r rem).
    { intros r Hr. apply In_nth_error in Hr as [k Hk].
      destruct (Nat.lt_ge_cases k st) as [Hlt|Hge].
      - apply Hpre. apply nth_error_In with k. clear - Hlt Hk. revert u st Hlt Hk.
        induction k as [|k IHk]; intros [|y u] [|s] H1 H2; simpl in *; try lia; try discriminate; auto.
        apply IHk; auto. lia.
      - apply (Hnone k r); auto. rewrite nth_error_app1; auto. eapply nth_error_lt; eauto. }
    split; [rewrite app_nil_r, app_assoc; reflexivity|]. split; [|split; [|split; [|split; [auto|]]]].
    + apply pd_app. split; [apply pd_app; auto|]. split; [split; [intros b []|exact I]|].
      intros a b Ha [<-|[]]. apply in_app_or in Ha as [Ha|Ha]; auto.
    + apply asc_snoc; unfold rem; simpl; auto; lia.
    + intros r Hr. apply in_app_or in Hr as [Hr|[<-|[]]].
      * apply in_app_or in Hr as [Hr|Hr]; auto.
      * intros _. split; [exact Hbx|]. split; [exact HbR2|].
        intros p [<-|Hp]; [right; unfold sub, rem; simpl; lia|]. left.
        destruct (intersects rem p) eqn:Ei; auto. exfalso.
        apply intersects_char in Ei as (c & Hc1 & Hc2).
        assert (Hcu : covered u c).
        { apply Hcov; [exact Hc1|]. exists p; auto. }
        destruct Hcu as (r & Hr & Hrc). specialize (Hall r Hr). unfold disj in Hall.
        assert (intersects r rem = true) by (apply intersects_char; eauto). congruence.
    + intros r Hr Hrne. split; [apply Hu; auto|]. left. auto.
  - (* split *)
    assert (Hiu : (i < length u)%nat).
    { destruct (Nat.lt_ge_cases i (length u)) as [|Hge]; auto. exfalso.
      rewrite nth_error_app2 in Hi by auto. apply nth_error_In in Hi.
      specialize (Hmr _ Hi). unfold disj in Hmr. congruence. }
    rewrite nth_error_app1 in Hi by auto.
    destruct (find_first (fun r => intersects r rem) u st i o Hi Hint Hsi) as (u1 & u2 & Eu & Hl1 & Hu1).
    { intros k y Hk Hy. apply (Hmin k y); auto. rewrite nth_error_app1; auto. lia. }
    { exact Hpre. }
    assert (Hou : In o u) by (eapply nth_error_In; eauto).
    assert (Ho : fst o < snd o /\ x < snd o /\ fst o < snd R).
    { apply intersects_spec in Hint. unfold rem in Hint; simpl in Hint. lia. }
    (* the overlapping range starts at or before x *)
    assert (Hox : fst o <= x).
    { destruct (N.le_gt_cases (fst o) x) as [|Hgt]; auto. exfalso.
      assert (Hc : covered P (fst o)).
      { apply Hcov; [lia|]. exists o; split; auto. unfold inr_; lia. }
      assert (Hcx : covered u x).
      { apply Hcov; [lia|]. eapply (covered_prefix P R); eauto. lia. }
      destruct Hcx as (r & Hr & Hrx). unfold inr_ in Hrx.
      assert (Hrint : intersects r R = true) by dlia.
      assert (Hoint : intersects o R = true) by dlia.
      rewrite Eu in Hr, Hord. apply ord_app in Hord as (_ & Hord2 & _). simpl in Hord2.
      apply in_app_or in Hr as [Hr|[<-|Hr]].
      - specialize (Hu1 r Hr). unfold rem in Hu1. dlia.
      - lia.
      - destruct Hord2 as [Hord2 _]. specialize (Hord2 r Hr Hoint Hrint). lia. }
    assert (Hlow : low_part rem o = (fst o, x)).
    { unfold low_part, rem; simpl. f_equal; lia. }
    assert (Hmid : mid_part rem o = (x, N.min (snd R) (snd o))).
    { unfold mid_part, rem; simpl. f_equal; lia. }
    assert (Hmax : max_part rem o = (N.min (snd R) (snd o), N.max (snd R) (snd o))) by reflexivity.
    assert (Hlowx : fst o < x -> x = fst R).
    { intros Hlt. specialize (Hux o Hou). dlia. }
    rewrite Hlow, Hmid, Hmax. clear Hlow Hmid Hmax Hnext Es.
    set (low := (fst o, x)) in *. set (mid := (x, N.min (snd R) (snd o))) in *.
    destruct (Hu o Hou) as (Bo1 & Bo2 & Bo3); [lia|].
    assert (Bo2' : bnd P (snd o)) by (destruct Bo2 as [E|?]; auto; lia).
    assert (Eupd : @update_nth rng i (fun _ : rng => low) (u ++ mids) = (u1 ++ low :: u2) ++ mids).
    { rewrite Eu, <- Hl1. rewrite <- !app_assoc. simpl. apply update_split. }
    rewrite Eupd. clear Eupd.
    set (w := (u1 ++ low :: u2) ++ mids) in *.
    assert (Hslow : sub low o) by (unfold sub, low; simpl; lia).
    assert (Hsmid : sub mid o) by (unfold sub, mid; simpl; lia).
    (* every other range is disjoint from o *)
    rewrite Eu in Hpdu. apply pd_app in Hpdu as (Hpd1 & Hpd2 & Hpd12). simpl in Hpd2.
    destruct Hpd2 as [Hpdo Hpd2].
    assert (Hd1 : forall r, In r u1 -> disj r o) by (intros r Hr; apply Hpd12; auto; left; auto).
    assert (Hd2 : forall r, In r u2 -> disj r o) by (intros r Hr; apply disj_sym; auto).
    assert (Hdm : forall r, In r mids -> disj r o).
    { intros r Hr. apply disj_sym, Hpdum; auto. }
    assert (Hin1 : forall r, In r u1 -> In r u) by (intros; rewrite Eu; apply in_or_app; auto).
    assert (Hin2 : forall r, In r u2 -> In r u) by (intros; rewrite Eu; apply in_or_app; right; right; auto).
    assert (Hpdw : pd w).
    { unfold w. apply pd_app. split; [apply pd_app; split; [auto|split]|].
      - split; auto. intros b Hb. eapply disj_sub; eauto.
      - intros a b Ha [<-|Hb]; [|apply Hpd12; auto; right; auto].
        apply disj_sym. eapply disj_sub; eauto. apply disj_sym; auto.
      - split; auto. intros a b Ha Hb. apply in_app_or in Ha as [Ha|[<-|Ha]].
        + apply Hpdum; auto.
        + eapply disj_sub; eauto.
        + apply Hpdum; auto. }
    assert (Hwo : forall y r, In y w -> sub r o -> disj low r -> disj y r).
    { intros y r Hy Hr Hlr. unfold w in Hy. apply in_app_or in Hy as [Hy|Hy].
      - apply in_app_or in Hy as [Hy|[<-|Hy]].
        + apply disj_sym. eapply disj_sub; eauto. apply disj_sym; auto.
        + exact Hlr.
        + apply disj_sym. eapply disj_sub; eauto.
      - apply disj_sym. eapply disj_sub; eauto. }
    assert (Hlm : disj low mid) by (unfold low, mid; dlia).
    assert (Hlenw : (length w = length u + length mids)%nat).
    { unfold w. rewrite Eu, !app_length. simpl. rewrite ?app_length; simpl; lia. }
    rewrite ar_run_push.
    2:{ intros r s0 Hin. simpl in Hin. simpl. rewrite Hlenw.
        destruct Hin as [E|[E|[]]]; injection E as _ <-; lia. }
    2:{ unfold mid; simpl; lia. }
    2:{ intros y Hy. apply Hwo; auto. }
    assert (Hpdwm : pd (w ++ (@cons rng mid nil))).
    { apply pd_app. split; auto. split; [split; [intros b []|exact I]|].
      intros a b Ha [<-|[]]. apply Hwo; auto. }
    assert (Efold : @app rng w (@cons rng mid nil) = (u1 ++ low :: u2) ++ (mids ++ @cons rng mid nil)) by (unfold w; rewrite <- app_assoc; reflexivity).
    assert (Hascm : asc (fst R) (mids ++ (@cons rng mid nil)) (N.min (snd R) (snd o))).
    { apply asc_snoc; unfold mid; simpl; auto; lia. }
    assert (Hfinemid : fine (R :: P) mid).
    { intros _. split; [exact Hbx|]. split.
      - unfold mid; simpl. destruct (N.min_spec (snd R) (snd o)) as [[_ ->]|[_ ->]]; auto using bnd_cons.
      - apply (fine_sub_old P R mid o); auto. right. unfold sub, mid; simpl; lia. }
    assert (Hlowne : fst low < snd low -> x = fst R /\ disj low R).
    { unfold low; simpl. intros Hlt. pose proof (Hlowx Hlt) as Ex. split; auto. dlia. }
    assert (HlowR : disj low R).
    { destruct (N.lt_ge_cases (fst low) (snd low)) as [Hlt|Hge]; [apply Hlowne; auto|]. dlia. }
    assert (Hfinelow : fine (R :: P) low).
    { intros Hlt. destruct (Hlowne Hlt) as [Ex _]. split; [apply bnd_cons; exact Bo1|].
      split; [exact Hbx|]. apply (fine_sub_old P R low o); auto. }
    destruct (N.lt_ge_cases (snd o) (snd R)) as [Hlt|Hge].
    + (* continue with what is left of the new range *)
      assert (Emin : N.min (snd R) (snd o) = snd o) by lia.
      assert (Emax : N.max (snd R) (snd o) = snd R) by lia.
      rewrite Emin in Hascm. rewrite Emin, Emax.
      rewrite Efold. apply IH.
      * lia.
      * lia.
      * apply bnd_cons; auto.
      * rewrite <- Efold; auto.
      * rewrite app_length. simpl. lia.
      * intros r Hr. apply in_app_or in Hr as [Hr|[<-|Hr]].
        -- apply (disj_join r (fst R) x (snd o)); [lia|apply Hux; auto|].
           apply disj_sym. eapply disj_sub; [|apply disj_sym; apply (Hd1 r Hr)]. unfold sub; simpl; lia.
        -- unfold low in *. dlia.
        -- apply (disj_join r (fst R) x (snd o)); [lia|apply Hux; auto|].
           apply disj_sym. eapply disj_sub; [|apply disj_sym; apply (Hd2 r Hr)]. unfold sub; simpl; lia.
      * exact Hascm.
      * rewrite Eu in Hord. apply ord_app in Hord as (O1 & O2 & O3). simpl in O2.
        apply ord_app. split; auto. split.
        -- split; [|apply O2]. intros b Hb Hc. unfold disj in HlowR. congruence.
        -- intros a b Ha [<-|Hb] Hc1 Hc2; [unfold disj in HlowR; congruence|].
           apply O3; auto. right; auto.
      * intros r Hr. rewrite <- Hl1 in Hr.
        replace (S (length u1)) with (length u1 + 1)%nat in Hr by lia.
        rewrite firstn_app_2 in Hr. simpl in Hr. apply in_app_or in Hr as [Hr|[<-|[]]].
        -- specialize (Hu1 r Hr). unfold rem in Hu1. dlia.
        -- unfold low. dlia.
      * intros c Hc. rewrite (Hcov c) by lia. rewrite Eu. apply covered_swap.
        -- unfold inr_; lia.
        -- unfold inr_, low; simpl. lia.
      * intros r Hr Hrne. apply in_app_or in Hr as [Hr|[<-|Hr]]; auto.
        destruct (Hlowne Hrne) as [Ex _]. split; [exact Bo1|]. split; [left; exact Ex|].
        intros p Hp. destruct (Bo3 p Hp) as [Hd|Hd]; [left; eapply disj_sub; eauto|].
        right. unfold sub in *. lia.
      * intros r Hr. apply in_app_or in Hr as [Hr|[<-|[]]]; auto.
    + (* the overlapping range covers the rest of the new one *)
      assert (Emin : N.min (snd R) (snd o) = snd R) by lia.
      assert (Emax : N.max (snd R) (snd o) = snd o) by lia.
      rewrite Emin in Hascm. rewrite Emin, Emax.
      assert (HfinalU : forall r, In r (u1 ++ low :: u2) -> fst r < snd r ->
                 bnd P (fst r) /\ (disj r R \/ bnd P (snd R))).
      { intros r Hr Hrne. apply in_app_or in Hr as [Hr|[<-|Hr]].
        - split; [apply Hu; auto|]. left. apply HdR; auto. apply Hu1; auto.
        - split; [exact Bo1|]. left; exact HlowR.
        - split; [apply Hu; auto|]. left. apply HdR; auto.
          apply disj_sym. eapply disj_sub; [|apply disj_sym; apply (Hd2 r Hr)].
          unfold sub, rem; simpl; lia. }
      assert (HfineW : forall r, In r (w ++ (@cons rng mid nil)) -> fine (R :: P) r).
      { intros r Hr. rewrite Efold in Hr. apply in_app_or in Hr as [Hr|Hr].
        - apply in_app_or in Hr as [Hr|[<-|Hr]]; auto.
          + apply Hfu; auto. apply HdR; auto. apply Hu1; auto.
          + apply Hfu; auto. apply HdR; auto.
            apply disj_sym. eapply disj_sub; [|apply disj_sym; apply (Hd2 r Hr)].
            unfold sub, rem; simpl; lia.
        - apply in_app_or in Hr as [Hr|[<-|[]]]; auto. }
      assert (Hok2 : ar_ok ([((snd R, snd o), S i)], w ++ (@cons rng mid nil))).
      { intros r s0 [E|[]]. injection E as _ <-. simpl. rewrite app_length, Hlenw. simpl. lia. }
      destruct (N.eq_dec (snd o) (snd R)) as [Eeq|Hneq].
      * rewrite ar_run_empty; auto; [|simpl; lia]. rewrite ar_run_nil.
        exists (w ++ (@cons rng mid nil)), (u1 ++ low :: u2), (mids ++ (@cons rng mid nil)), [].
        split; [reflexivity|]. split; [rewrite app_nil_r; exact Efold|].
        split; [exact Hpdwm|]. split; [exact Hascm|]. split; [exact HfineW|]. split; [auto|exact HfinalU].
      * assert (Hmaxd : forall y, In y (w ++ (@cons rng mid nil)) -> disj y (snd R, snd o)).
        { intros y Hy. apply in_app_or in Hy as [Hy|[<-|[]]].
          - apply Hwo; auto; [unfold sub; simpl; lia|]. unfold low. dlia.
          - unfold mid. dlia. }
        rewrite ar_run_push; auto; [|simpl; lia]. rewrite ar_run_nil.
        exists ((w ++ (@cons rng mid nil)) ++ (@cons rng (snd R, snd o) nil)), (u1 ++ low :: u2), (mids ++ (@cons rng mid nil)), (@cons rng (snd R, snd o) nil).
        split; [reflexivity|]. split; [rewrite Efold, <- app_assoc; reflexivity|].
        split; [|split; [exact Hascm|split; [|split; [|exact HfinalU]]]].
        -- apply pd_app. split; auto. split; [split; [intros b []|exact I]|].
           intros a b Ha [<-|[]]. auto.
        -- intros r Hr. apply in_app_or in Hr as [Hr|[<-|[]]]; auto.
           intros _. split; [exact HbR2|]. split; [apply bnd_cons; exact Bo2'|].
           apply (fine_sub_old P R _ o); auto; [unfold sub; simpl; lia|].
           left. dlia.
        -- right. eexists; split; [reflexivity|reflexivity].
Qed.

(** ** The whole fold *)

(** Invariant between two insertions. *)
Definition lam_inv (P v : list rng) : Prop :=
  pd v /\ (forall r, In r v -> fine P r) /\ (forall c, covered v c <-> covered P c) /\
  forall R, Fut P R -> ord R v.

Lemma after_weaken P R R' : After (R :: P) R' -> After P R'.
Proof. intros [H1 H2]. split; auto. intros p Hp. apply H2; right; auto. Qed.

Lemma fut_weaken P R R' : Fut (R :: P) R' -> Fut P R'.
Proof. intros [H1 H2]. split; [eapply after_weaken; eauto|]. intros p q Hp Hq. apply H2; right; auto. Qed.

Lemma add_range_laminar P R v : lam_inv P v -> Fut P R ->
  exists v', add_range R 0 v = Ok v' /\ lam_inv (R :: P) v'.
Proof.
  intros (Hpd & Hfine & Hcov & Hord) HR.
  assert (HRne : fst R < snd R) by apply HR.
  destruct (insert_laminar P R (proj1 HR) (N.to_nat (snd R - fst R)) (fst R) v [] 0)
    as (v' & u' & mids' & tail & Erun & Ev' & Hpd' & Hasc & Hfine' & Htail & Hu').
  - lia.
  - lia.
  - exists R; split; [left; auto|auto].
  - rewrite app_nil_r; auto.
  - lia.
  - intros r Hr. dlia.
  - simpl; lia.
  - apply Hord; auto.
  - intros r [].
  - intros c Hc. symmetry; apply Hcov.
  - intros r Hr Hne. destruct (Hfine r Hr Hne) as (B1 & B2 & B3). auto.
  - intros r [].
  - rewrite app_nil_r in Erun. replace (fst R, snd R) with R in Erun by (destruct R; reflexivity).
    change (add_range R 0 v = Ok v') in Erun.
    exists v'. split; [exact Erun|]. split; [exact Hpd'|]. split; [exact Hfine'|]. split.
    + destruct (add_range_covered R v) as (v2 & E2 & H2). 
      assert (v2 = v') as -> by congruence.
      intros c. rewrite H2, covered_cons, Hcov. reflexivity.
    + intros R' HR'. pose proof (proj1 (proj1 HR')) as HR'ne. pose proof (proj1 HR') as HA.
      assert (Hcov' : forall c, covered v' c -> covered (R :: P) c).
      { destruct (add_range_covered R v) as (v2 & E2 & H2). assert (v2 = v') as -> by congruence.
        intros c Hc. apply H2 in Hc. rewrite covered_cons in *. destruct Hc as [Hc|Hc]; auto. right. apply Hcov; auto. }
      destruct (existsb (fun p => (fst p <? fst R') && (fst R' <? snd p) && (snd p <? snd R')) (R :: P)) eqn:Ex.
      * (* some range of the inputs overlaps R' without being nested: one range meets R', or two if the
           first character of R' is a range *)
        apply existsb_exists in Ex as (p & Hp & Ep). rewrite !andb_true_iff, !N.ltb_lt in Ep. destruct Ep as [[Ep1 Ep2] Ep3].
        assert (HT : forall q, In q (R :: P) -> fst q <= fst R' < snd q -> q = p \/ (fst q = fst R' /\ snd q = fst R' + 1)).
        { intros q Hq Hc. destruct (proj2 HR' p q Hp Hq Ep1 Ep2 Ep3 Hc) as [H|H]; auto. right. lia. }
        assert (Hend : forall r, In r v' -> fst r < snd r -> fst r = snd p -> False).
        { intros r Hr Hne E. destruct (Hcov' (fst r)) as (q & Hq & Hqc); [exists r; split; auto; unfold inr_; lia|].
          unfold inr_ in Hqc. assert (Hqs := proj2 HA q Hq). destruct (HT q Hq) as [-> |[H1 H2]]; lia. }
        assert (Hst : forall r, In r v' -> intersects r R' = true ->
                  fst r <= fst R' < snd r \/ (fst r = fst R' + 1 /\ R = (fst R', fst R' + 1))).
        { intros r Hr Hi. apply intersects_spec in Hi. destruct (N.le_gt_cases (fst r) (fst R')) as [Hle|Hgt]; [left; lia|].
          right. destruct (Hfine' r Hr) as (B1 & _); [lia|].
          destruct (interior _ _ _ HA B1) as (q & Hq & Hqc & Hqe); [lia|].
          destruct (HT q Hq Hqc) as [-> |[H1 H2]].
          - exfalso. apply (Hend r Hr); lia.
          - split; [lia|]. destruct Hq as [<-|Hq]; [destruct R; simpl in *; congruence|]. exfalso.
            assert (HqR := proj2 (proj1 HR) q Hq). assert (HRs := proj2 HA R (or_introl eq_refl) HRne).
            destruct (HT R (or_introl eq_refl)) as [-> |[H3 H4]]; lia. }
        destruct (N.eq_dec (fst R) (fst R')) as [Es|Es]; [destruct (N.eq_dec (snd R) (fst R' + 1)) as [Ee|Ee]|].
        -- assert (Hum : forall r, In r (u' ++ mids') -> intersects r R' = true -> fst r <= fst R' < snd r).
           { intros r Hr Hi. assert (Hrv : In r v') by (rewrite Ev', app_assoc; apply in_or_app; auto).
             destruct (Hst r Hrv Hi) as [H|[H _]]; auto. exfalso. apply intersects_spec in Hi.
             apply in_app_or in Hr as [Hr|Hr].
             - destruct (Hu' r Hr) as (B1 & _); [lia|].
               destruct (interior P R' (fst r) (after_weaken _ _ _ HA) B1) as (q & Hq & Hqc & Hqe); [lia|].
               destruct (HT q (or_intror Hq) Hqc) as [-> |[H1 H2]].
               + apply (Hend r Hrv); lia.
               + assert (HqR := proj2 (proj1 HR) q Hq). lia.
             - destruct (asc_In _ _ _ _ Hasc Hr). lia. }
           rewrite Ev', app_assoc. rewrite Ev', app_assoc in Hpd'. apply pd_app in Hpd' as (Hp1 & Hp2 & Hp12).
           apply ord_app. split; [|split].
           ++ apply ord_trivial; auto. intros a b Ha Hb Hia Hib Hd.
              pose proof (Hum a Ha Hia). pose proof (Hum b Hb Hib). dlia.
           ++ destruct Htail as [->|(m & -> & _)]; simpl; auto. split; auto. intros b [].
           ++ intros a b Ha Hb Hia Hib. destruct Htail as [->|(m & -> & Em)]; [destruct Hb|]. destruct Hb as [<-|[]].
              pose proof (Hum a Ha Hia). specialize (Hp12 a m Ha (or_introl eq_refl)). apply intersects_spec in Hib. dlia.
        -- apply ord_trivial; auto. intros a b Ha Hb Hia Hib Hd.
           destruct (Hst a Ha Hia) as [Ha'|[_ ER]]; [|rewrite ER in Ee; simpl in Ee; lia].
           destruct (Hst b Hb Hib) as [Hb'|[_ ER]]; [|rewrite ER in Ee; simpl in Ee; lia]. dlia.
        -- apply ord_trivial; auto. intros a b Ha Hb Hia Hib Hd.
           destruct (Hst a Ha Hia) as [Ha'|[_ ER]]; [|rewrite ER in Es; simpl in Es; lia].
           destruct (Hst b Hb Hib) as [Hb'|[_ ER]]; [|rewrite ER in Es; simpl in Es; lia]. dlia.
      * assert (Hint : forall b, bnd (R :: P) b -> fst R' < b < snd R' ->
                  exists p, In p (R :: P) /\ fst p < snd p /\ fst p = fst R' /\ snd p = b).
        { intros b Hb Hi. destruct (interior _ _ _ HA Hb Hi) as (p & Hp & Hpc & Hpe).
          exists p. split; auto. split; [lia|]. split; auto.
          destruct (N.eq_dec (fst p) (fst R')) as [|Hn]; auto. exfalso.
          assert (existsb (fun p => (fst p <? fst R') && (fst R' <? snd p) && (snd p <? snd R')) (R :: P) = true); [|congruence].
          apply existsb_exists. exists p. split; auto. rewrite !andb_true_iff, !N.ltb_lt. lia. }
        destruct (proj2 HA R (or_introl eq_refl) HRne) as [Hlt|[Heq Hlt]].
        -- (* starts later: no boundary inside R', so at most one range meets it *)
           apply ord_trivial; auto. intros a b Ha Hb Hia Hib Hd.
           assert (Hcont : forall r, In r v' -> intersects r R' = true -> sub R' r).
           { intros r Hr Hi. apply intersects_spec in Hi. destruct (Hfine' r Hr) as (B1 & B2 & _); [lia|].
             assert (Hnoint : forall b, bnd (R :: P) b -> ~ (fst R' < b < snd R')).
             { intros b0 Hb0 Hi0. destruct (Hint _ Hb0 Hi0) as (p & Hp & Hpne & Hpf & _).
               destruct Hp as [<-|Hp]; [lia|]. pose proof (proj2 (proj1 HR) p Hp Hpne). lia. }
             pose proof (Hnoint _ B1). pose proof (Hnoint _ B2). unfold sub. lia. }
           pose proof (Hcont a Ha Hia) as Sa. pose proof (Hcont b Hb Hib) as Sb. dlia.
        -- (* same start, longer *)
           assert (HintP : forall b, bnd P b -> fst R' < b < snd R' -> snd R <= b -> False).
           { intros b (p & Hp & Hpne & Hb) Hi Hge. pose proof (proj2 (proj1 HR) p Hp Hpne) as Hl.
             destruct (Hint b) as (q & Hq & Hqne & Hqf & Hqs); [exists p; split; [right; auto|auto]|lia|].
             destruct Hb as [-> | ->]; [lia|].
             destruct (N.eq_dec (fst p) (fst R')) as [E|E]; [lia|].
             assert (existsb (fun p => (fst p <? fst R') && (fst R' <? snd p) && (snd p <? snd R')) (R :: P) = true); [|congruence].
             apply existsb_exists. exists p. split; [right; auto|]. rewrite !andb_true_iff, !N.ltb_lt. lia. }
           assert (Hno : forall r, In r u' -> intersects r R' = true -> False).
           { intros r Hr Hi. apply intersects_spec in Hi. destruct (Hu' r Hr) as (B1 & B2); [lia|].
             destruct B2 as [Hd|B2].
             - assert (Hge : snd R <= fst r) by dlia. apply (HintP (fst r) B1); lia.
             - apply (HintP (snd R) B2); lia. }
           rewrite Ev'. apply ord_app. split; [|split].
           ++ rewrite Ev' in Hpd'. apply pd_app in Hpd' as (Hpu & _). clear - Hno Hpu.
              induction u' as [|a u' IHu]; simpl; auto. split.
              ** intros b Hb Ha. exfalso. apply (Hno a); auto. left; auto.
              ** apply IHu; [apply Hpu|intros; eapply Hno; eauto; right; auto].
           ++ destruct Htail as [->|(m & -> & Em)].
              ** rewrite app_nil_r. eapply ord_asc; eauto.
              ** apply ord_app. split; [eapply ord_asc; eauto|]. split; [split; [intros b []|exact I]|].
                 intros a b Ha [<-|[]] _ _. destruct (asc_In _ _ _ _ Hasc Ha). lia.
           ++ intros a b Ha Hb Hia Hib. exfalso. eapply Hno; eauto.
Qed.

Lemma add_range_empty R v : snd R <= fst R -> add_range R 0 v = Ok v.
Proof.
  intros H. unfold add_range. rewrite ar_run_empty; auto.
  - apply ar_run_nil.
  - intros r s0 [E|[]]. injection E as _ <-. simpl; lia.
Qed.

Lemma lam_inv_empty P R v : snd R <= fst R -> lam_inv P v -> lam_inv (R :: P) v.
Proof.
  intros He (H1 & H2 & H3 & H4). split; auto. split; [|split].
  - intros r Hr Hne. destruct (H2 r Hr Hne) as (B1 & B2 & B3).
    split; [apply bnd_cons; auto|]. split; [apply bnd_cons; auto|].
    intros p [<-|Hp]; auto. left. dlia.
  - intros c. rewrite H3, covered_cons. unfold inr_. split; auto. intros [?|?]; auto. lia.
  - intros R' HR'. apply H4. eapply fut_weaken; eauto.
Qed.

(** C04 for families of ranges in which the first character of a range that overlaps another one
    without being nested is in no third range of more than one character. *)
Definition tame (l : list rng) : Prop :=
  forall p q r, In p l -> In q l -> In r l -> fst p < fst r -> fst r < snd p -> snd p < snd r ->
    fst q <= fst r < snd q -> q = p \/ q = r \/ snd q <= fst q + 1.

Lemma laminar_tame l : (forall a b, In a l -> In b l -> nested_or_disjoint a b) -> tame l.
Proof.
  intros H p q r Hp Hq Hr H1 H2 H3 H4. exfalso. destruct (H p r Hp Hr) as [E|[E|E]].
  - unfold disj in E. rewrite intersects_false in E. lia.
  - unfold sub in E. lia.
  - unfold sub in E. lia.
Qed.

Lemma remove_overlap_tame ranges :
  ssorted ranges -> tame ranges ->
  exists v, remove_overlap ranges = Ok v /\ pd v /\
    forall r p, In r v -> In p ranges -> disj r p \/ sub r p.
Proof.
  intros Hs Hl. unfold remove_overlap.
  assert (G : forall todo done v, lam_inv done v -> ssorted todo ->
     (forall p R, In p done -> In R todo -> cmp p R = Lt) -> tame (done ++ todo) ->
     exists v' done', foldM (fun v r => add_range r 0 v) todo v = Ok v' /\ lam_inv done' v' /\
       forall p, In p done \/ In p todo -> In p done').
  { induction todo as [|R todo IH]; intros done v Hinv Hst Hdt Htt; simpl.
    - exists v, done. split; auto. split; auto. intros p [Hp|[]]; auto.
    - destruct Hst as [HR Hst].
      assert (Hnext : exists v1, add_range R 0 v = Ok v1 /\ lam_inv (R :: done) v1).
      { destruct (N.lt_ge_cases (fst R) (snd R)) as [Hne|He].
        - assert (Hne' : forall p, In p done -> p <> R).
          { intros p Hp ->. pose proof (Hdt R R Hp (or_introl eq_refl)) as Hc. rewrite cmp_refl in Hc. discriminate. }
          apply add_range_laminar; auto. split; [split; auto|].
          + intros p Hp Hpne. pose proof (Hdt p R Hp (or_introl eq_refl)) as Hc.
            destruct p as [p1 p2], R as [r1 r2]. simpl in *. unfold lex_cmp in Hc.
            destruct (N.compare_spec p1 r1); try discriminate; auto.
          + intros p q Hp Hq H1 H2 H3 H4.
            destruct (Htt p q R) as [E|[E|E]]; auto; try (apply in_or_app; simpl; auto). exfalso. exact (Hne' q Hq E).
        - exists v. split; [apply add_range_empty; auto|apply lam_inv_empty; auto]. }
      destruct Hnext as (v1 & E1 & Hinv1). rewrite E1; simpl.
      destruct (IH (R :: done) v1 Hinv1 Hst) as (v' & done' & E & Hi & Hd).
      + intros p R' [<-|Hp] HR'; [apply HR; auto|]. apply Hdt; auto. right; auto.
      + intros p q r Hp Hq Hr. apply Htt; rewrite ?in_app_iff in *; simpl in *; tauto.
      + exists v', done'. split; auto. split; auto. intros p [Hp|[<-|Hp]]; apply Hd; simpl; auto. }
  destruct (G ranges [] []) as (v & done & E & (Hpd & Hfine & _) & Hd); auto.
  - split; [exact I|]. split; [intros r []|]. split; [|intros; exact I].
    intros c; reflexivity.
  - intros p R [].
  - rewrite E; simpl. eexists; split; [reflexivity|]. split.
    + clear - Hpd. induction v as [|a v IH]; simpl; auto. destruct Hpd as [Ha Hp].
      destruct (negb (rng_empty a)); simpl; auto. split; auto.
      intros b Hb. apply filter_In in Hb as [Hb _]. auto.
    + intros r p Hr Hp. apply filter_In in Hr as [Hr Hne].
      apply negb_true_iff, rng_empty_false in Hne.
      destruct (Hfine r Hr Hne) as (_ & _ & B3). apply B3. auto.
Qed.

Lemma remove_overlap_laminar ranges :
  ssorted ranges ->
  (forall a b, In a ranges -> In b ranges -> nested_or_disjoint a b) ->
  exists v, remove_overlap ranges = Ok v /\ pd v /\
    forall r p, In r v -> In p ranges -> disj r p \/ sub r p.
Proof. intros Hs Hl. apply remove_overlap_tame; auto. apply laminar_tame; auto. Qed.
