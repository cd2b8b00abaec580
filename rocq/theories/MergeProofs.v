(** Proofs about the merging of LR(1) states with equal cores. *)
From Verif Require Import Base Grammar GrammarSpec Item ItemSpec ItemProofs Table TableSpec.

(** ** Union *)

Lemma core_has s p d : wf_set s -> In (p, d) (core s) <-> exists k, has s p d k.
Proof.
  intros [Hs Hl]. unfold core, has. rewrite in_map_iff. split.
  - intros ([it las] & E & Hin). simpl in E. subst it. destruct (Hl _ _ Hin) as [_ Hne].
    destruct las as [|k las]; [tauto|]. exists k, (k :: las). split; [exact Hin|left; reflexivity].
  - intros (k & las & Hin & _). exists ((p, d), las). auto.
Qed.

Lemma core_sorted s : wf_set s -> ssorted (core s).
Proof. intros [Hs _]. exact Hs. Qed.

Lemma core_ext s t : wf_set s -> wf_set t ->
  core s = core t <-> forall p d, (exists k, has s p d k) <-> (exists k, has t p d k).
Proof.
  intros Hs Ht. split.
  - intros E p d. rewrite <- !core_has by assumption. rewrite E. reflexivity.
  - intros H. apply ssorted_ext; [apply core_sorted, Hs|apply core_sorted, Ht|].
    intros [p d]. rewrite !core_has by assumption. apply H.
Qed.

Lemma union_mapM s other :
  (exists r, mapM (fun e : item * list nat => match map_get (fst e) other with
                   | None => Panic PUnwrapNone
                   | Some las => Ok (fst e, set_extend las (snd e))
                   end) s = Ok r /\ core r = core s /\
     forall it las, In (it, las) r <-> exists l1 l2, In (it, l1) s /\ map_get it other = Some l2 /\ las = set_extend l2 l1) \/
  ((exists p, mapM (fun e : item * list nat => match map_get (fst e) other with
                   | None => Panic PUnwrapNone
                   | Some las => Ok (fst e, set_extend las (snd e))
                   end) s = Panic p) /\ exists it, In it (core s) /\ ~ In it (core other)).
Proof.
  induction s as [|[it las] s IH]; cbn [mapM fst snd].
  - left. exists []. split; auto. split; auto. intros it las. split; [intros []|intros (l1 & l2 & [] & _)].
  - destruct (map_get it other) as [l2|] eqn:E; cbn [bind].
    + destruct IH as [(r & -> & Hc & Hr)|[[p ->] (it' & H1 & H2)]]; cbn [bind].
      * left. eexists. split; [reflexivity|]. split; [simpl; congruence|].
        intros it' las'. simpl. rewrite Hr. split.
        -- intros [Eq|(a & b & H1 & H2 & H3)]; [injection Eq as <- <-; eauto 6|eauto 6].
        -- intros (a & b & [Eq|H1] & H2 & H3).
           ++ injection Eq as <- <-. left. congruence.
           ++ right. eauto.
      * right. split; [eauto|]. exists it'. simpl. auto.
    + right. split; [eauto|]. exists it. split; [left; reflexivity|].
      apply map_get_None in E. exact E.
Qed.

Lemma union_spec s other : wf_set s -> wf_set other ->
  (exists r, union s other = Ok r /\ wf_set r /\ core r = core s /\ core other = core s /\
     forall p d k, has r p d k <-> has s p d k \/ has other p d k) \/
  ((exists p, union s other = Panic p) /\ core other <> core s).
Proof.
  intros Hs Ho. unfold union. destruct (length s =? length other) eqn:El.
  - apply Nat.eqb_eq in El. destruct (union_mapM s other) as [(r & -> & Hc & Hr)|[[p ->] (it & H1 & H2)]].
    + left. exists r. split; auto.
      assert (Hsub : incl (core s) (core other)).
      { intros it Hit. rewrite <- Hc in Hit. unfold core in Hit. apply in_map_iff in Hit as ([it' las] & <- & Hin).
        apply Hr in Hin as (l1 & l2 & _ & E & _). apply map_get_In in E. apply (in_map fst) in E. exact E. }
      assert (Hsup : incl (core other) (core s)).
      { apply NoDup_length_incl; auto.
        - apply ssorted_NoDup, core_sorted, Hs.
        - unfold core. rewrite !map_length. lia. }
      assert (Hco : core other = core s).
      { apply ssorted_ext; [apply core_sorted, Ho|apply core_sorted, Hs|]. intros x; split; auto. }
      split; [|split; [auto|split; auto]].
      * split; [unfold msorted, keys; change (ssorted (core r)); rewrite Hc; apply core_sorted, Hs|].
        intros it las Hin. apply Hr in Hin as (l1 & l2 & H1 & H2 & ->). destruct (proj2 Hs _ _ H1) as [Hs1 Hn1].
        split; [apply set_extend_sorted, Hs1|]. intros C. destruct l1 as [|x l1]; [tauto|].
        assert (In x []) as []. rewrite <- C. apply set_extend_In. right. left. reflexivity.
      * intros p d k. unfold has. split.
        -- intros (las & Hin & Hk). apply Hr in Hin as (l1 & l2 & H1 & H2 & ->).
           apply set_extend_In in Hk as [Hk|Hk]; [right; exists l2; split; auto; apply map_get_In; exact H2|left; eauto].
        -- intros [(las & Hin & Hk)|(las & Hin & Hk)].
           ++ assert (In (p, d) (core other)) as Ho' by (rewrite Hco; apply (in_map fst) in Hin; exact Hin).
              unfold core in Ho'. change (In (p, d) (keys other)) in Ho'. apply map_get_Some_key in Ho' as [l2 H2].
              exists (set_extend l2 las). split; [apply Hr; eauto|apply set_extend_In; auto].
           ++ assert (In (p, d) (core s)) as Hs' by (rewrite <- Hco; apply (in_map fst) in Hin; exact Hin).
              unfold core in Hs'. change (In (p, d) (keys s)) in Hs'. apply map_get_Some_key in Hs' as [l1 H1].
              apply map_get_In in H1. exists (set_extend las l1). split; [apply Hr|apply set_extend_In; auto].
              exists l1, las. split; auto. split; auto. apply In_map_get; [apply Ho|exact Hin].
    + right. split; [eauto|]. intros C. rewrite C in H2. auto.
  - right. split; [eauto|]. intros C. apply Nat.eqb_neq in El. apply El.
    pose proof (f_equal (@length _) C) as HL. unfold core in HL. rewrite !map_length in HL. auto.
Qed.

(** ** Groups *)

Section Groups.
  Variable hash : list item -> N.
  Variable sets : list item_set.

  Definition in_group (n : nat) (h : N) (i : nat) : Prop :=
    i < n /\ exists s, nth_error sets i = Some s /\ hash (core s) = h.
  Definition GInv (n : nat) (gs : list (N * list nat)) : Prop :=
    NoDup (map fst gs) /\
    (forall h is, In (h, is) gs -> is <> [] /\ NoDup is /\ forall i, In i is <-> in_group n h i) /\
    (forall i h, in_group n h i -> In h (map fst gs)) /\
    (0 < n -> exists h is gs', gs = (h, 0 :: is) :: gs').

  Lemma group_push_spec n s gs : nth_error sets n = Some s -> GInv n gs -> GInv (S n) (group_push (hash (core s)) n gs).
  Proof.
    intros Hn (H1 & H2 & H3 & H4). set (h := hash (core s)).
    assert (Hk : forall l, map fst (group_push h n l) = map fst l \/
              (~ In h (map fst l) /\ map fst (group_push h n l) = map fst l ++ [h])).
    { induction l as [|[h' is] l IH]; simpl; auto. destruct (h =? h')%N eqn:E; simpl; auto.
      apply N.eqb_neq in E. destruct IH as [IH|[IH1 IH2]]; [left; congruence|right].
      split; [intros [C|C]; auto; congruence|congruence]. }
    assert (Hm : forall l, NoDup (map fst l) -> forall h' is, In (h', is) (group_push h n l) <->
        (h' <> h /\ In (h', is) l) \/ (h' = h /\ ((exists is', In (h, is') l /\ is = is' ++ [n]) \/ (~ In h (map fst l) /\ is = [n])))).
    { induction l as [|[h0 is0] l IH]; intros HN h' is; simpl.
      - split.
        + intros [E|[]]. injection E as <- <-. right. split; auto.
        + intros [[_ []]|[-> [(is' & [] & _)|[_ ->]]]]. auto.
      - inversion HN as [|x y Hx Hy]; subst. destruct (h =? h0)%N eqn:E; simpl.
        + apply N.eqb_eq in E. subst h0. split.
          * intros [Eq|Hin]; [injection Eq as <- <-; right; split; eauto|].
            left. split; auto. intros ->. apply Hx. apply (in_map fst) in Hin. exact Hin.
          * intros [[Hne [Eq|Hin]]|[-> [(is' & [Eq|Hin] & ->)|[Hn' _]]]]; auto.
            -- injection Eq as <- _. tauto.
            -- injection Eq as <-. auto.
            -- exfalso. apply Hx. apply (in_map fst) in Hin. exact Hin.
            -- tauto.
        + apply N.eqb_neq in E. rewrite (IH Hy). split.
          * intros [Eq|[[Hne Hin]|[-> [(is' & Hin & ->)|[Hn' ->]]]]].
            -- injection Eq as <- <-. left. split; auto.
            -- left. auto.
            -- right. split; auto. left. eauto.
            -- right. split; auto. right. split; auto. intros [C|C]; auto.
          * intros [[Hne [Eq|Hin]]|[-> [(is' & [Eq|Hin] & ->)|[Hn' ->]]]]; auto.
            -- injection Eq as <- _. congruence.
            -- right. right. split; auto. left. eauto.
            -- right. right. split; auto. right. split; auto. }
    assert (Hgi : forall h' i, in_group (S n) h' i <-> in_group n h' i \/ (i = n /\ h' = h)).
    { intros h' i. unfold in_group. split.
      - intros (Hi & t & Ht & Eh). destruct (Nat.eq_dec i n) as [->|Hne].
        + right. rewrite Hn in Ht. injection Ht as <-. auto.
        + left. split; [lia|eauto].
      - intros [(Hi & t & Ht)|[-> ->]]; (split; [lia|]); eauto. }
    split; [|split; [|split]].
    - destruct (Hk gs) as [->|[Hni ->]]; auto. apply NoDup_snoc; auto.
    - intros h' is Hin. apply (Hm gs H1) in Hin as [[Hne Hin]|[-> [(is' & Hin & ->)|[Hni ->]]]].
      + destruct (H2 _ _ Hin) as (Ha & Hb & Hc). split; auto. split; auto. intros i. rewrite Hc, Hgi.
        split; auto. intros [H|[_ C]]; [auto|congruence].
      + destruct (H2 _ _ Hin) as (Ha & Hb & Hc). split; [destruct is'; discriminate|]. split.
        * apply NoDup_snoc; auto. rewrite Hc. intros [C _]. lia.
        * intros i. rewrite in_app_iff, Hc, Hgi. simpl. intuition auto.
      + split; [discriminate|]. split; [constructor; [intros []|constructor]|].
        intros i. rewrite Hgi. simpl. split; [intros [<-|[]]; auto|].
        intros [H|[-> _]]; auto. exfalso. apply Hni. eapply H3; eauto.
    - intros i h' Hi. apply Hgi in Hi as [Hi|[-> ->]].
      + apply H3 in Hi. destruct (Hk gs) as [->|[_ ->]]; auto. apply in_or_app; auto.
      + destruct (Hk gs) as [E|[_ ->]]; [|apply in_or_app; right; left; reflexivity].
        destruct (in_dec N.eq_dec h (map fst (group_push h n gs))) as [Hi|Hi]; auto.
        exfalso. rewrite E in Hi. apply Hi. rewrite <- E.
        destruct (in_dec N.eq_dec h (map fst gs)) as [Hj|Hj]; [rewrite E; exact Hj|].
        change h with (fst (h, [n])). apply in_map. apply (Hm gs H1). right. split; auto.
    - intros _. destruct n as [|n].
      + assert (gs = []) as ->.
        { destruct gs as [|[h' is] gs]; auto. exfalso. destruct (H2 h' is (or_introl eq_refl)) as (Ha & _ & Hc).
          destruct is as [|i is]; [tauto|]. destruct (proj1 (Hc i) (or_introl eq_refl)) as [C _]. lia. }
        simpl. eauto.
      + destruct H4 as (h' & is & gs' & ->); [lia|]. simpl. destruct (h =? h')%N; eauto.
  Qed.

  Lemma group_cores_spec l : forall n gs, (exists l0, sets = l0 ++ l /\ length l0 = n) -> GInv n gs ->
    GInv (length sets) (group_cores hash n l gs).
  Proof.
    induction l as [|s l IH]; intros n gs (l0 & E & Hl) HG; simpl.
    - rewrite app_nil_r in E. subst. exact HG.
    - apply IH.
      + exists (l0 ++ [s]). rewrite <- app_assoc. split; auto. rewrite app_length. simpl. lia.
      + apply group_push_spec; auto. rewrite E, nth_error_app2 by lia. rewrite Hl, Nat.sub_diag. reflexivity.
  Qed.

  Lemma groups : GInv (length sets) (group_cores hash 0 sets []).
  Proof.
    apply group_cores_spec; [exists []; auto|]. split; [constructor|]. split; [intros h is []|].
    split; [intros i h [C _]; lia|intros C; lia].
  Qed.

  (** ** Merging one group *)

  Hypothesis Hwf : forall s, In s sets -> wf_set s.

  Lemma take_set_ok presence i s : nth_error presence i = Some true -> nth_error sets i = Some s ->
    take_set sets presence i = Ok (s, update_nth i (fun _ => false) presence).
  Proof. unfold take_set. intros -> ->. reflexivity. Qed.

  Lemma merge_rest_spec is : forall s presence, wf_set s -> NoDup is ->
    (forall i, In i is -> nth_error presence i = Some true /\ exists t, nth_error sets i = Some t) ->
    (exists s' presence', merge_rest sets is (s, presence) = Ok (s', presence') /\ wf_set s' /\ core s' = core s /\
       (forall i t, In i is -> nth_error sets i = Some t -> core t = core s) /\
       (forall p d k, has s' p d k <-> has s p d k \/ exists i t, In i is /\ nth_error sets i = Some t /\ has t p d k) /\
       length presence' = length presence /\
       (forall i, ~ In i is -> nth_error presence' i = nth_error presence i)) \/
    ((exists p, merge_rest sets is (s, presence) = Panic p) /\
     exists i t, In i is /\ nth_error sets i = Some t /\ core t <> core s).
  Proof using Hwf.
    induction is as [|i is IH]; intros s presence Hs Hnd Hp; cbn [merge_rest].
    - left. exists s, presence. split; auto. split; auto. split; auto. split; [intros i t []|]. split; [|split; auto].
      intros p d k. split; auto. intros [H|(i & t & [] & _)]; auto.
    - inversion Hnd as [|x y Hni Hnd']; subst. destruct (Hp i (or_introl eq_refl)) as [Hpi [t Ht]].
      rewrite (take_set_ok _ _ _ Hpi Ht). cbn [bind].
      assert (Hwt : wf_set t) by (apply Hwf; eauto using nth_error_In).
      destruct (union_spec s t Hs Hwt) as [(r & -> & Hr & Hc & Hct & Hhas)|[[p ->] Hne]]; cbn [bind].
      + destruct (IH r (update_nth i (fun _ => false) presence) Hr Hnd') as [(s' & pr' & E & H1 & H2 & H3 & H4 & H5 & H6)|[[p E] (j & t' & Hj & Htj & Hne)]].
        * intros j Hj. destruct (Hp j (or_intror Hj)) as [Hpj Hsj]. split; auto.
          rewrite nth_error_update_other; auto. intros ->. tauto.
        * left. exists s', pr'. split; [exact E|]. split; auto. split; [congruence|]. split; [|split; [|split]].
          -- intros j t' [<-|Hj] Htj; [|rewrite <- Hc; eauto]. rewrite Ht in Htj. injection Htj as <-. exact Hct.
          -- intros q d k. rewrite H4, Hhas. split.
             ++ intros [[H|H]|(j & t' & Hj & Htj & H)]; auto; right; [exists i, t|exists j, t']; simpl; auto.
             ++ intros [H|(j & t' & [<-|Hj] & Htj & H)]; auto.
                ** rewrite Ht in Htj. injection Htj as <-. auto.
                ** right. eauto.
          -- rewrite H5. apply update_nth_length.
          -- intros j Hj. rewrite H6 by (intros C; apply Hj; right; exact C).
             apply nth_error_update_other. intros ->. apply Hj. left; reflexivity.
        * right. split; [eauto|]. exists j, t'. split; [right; exact Hj|]. split; auto. congruence.
      + right. split; [eauto|]. exists i, t. split; [left; reflexivity|auto].
  Qed.

  Definition collision : Prop := exists i j s t, nth_error sets i = Some s /\ nth_error sets j = Some t /\
    hash (core s) = hash (core t) /\ core s <> core t.

  (** ** All groups *)

  Definition MInv (done : list (N * list nat)) (st : mstate) : Prop :=
    length (ms_result st) = length done /\
    (forall j h is, nth_error done j = Some (h, is) -> exists t, nth_error (ms_result st) j = Some t /\ wf_set t /\
       (forall i s, In i is -> nth_error sets i = Some s -> core s = core t) /\
       (forall p d k, has t p d k <-> exists i s, In i is /\ nth_error sets i = Some s /\ has s p d k)) /\
    msorted (ms_map st) /\
    (forall i j, map_get i (ms_map st) = Some j <-> exists h is, nth_error done j = Some (h, is) /\ In i is) /\
    length (ms_presence st) = length sets /\
    (forall i, i < length sets -> (forall h is, In (h, is) done -> ~ In i is) -> nth_error (ms_presence st) i = Some true).

  Lemma map_inserts (v : nat) is : forall m : list (nat * nat), msorted m ->
    let m' := fold_left (fun m i => map_insert i v m) is m in
    msorted m' /\ forall i, map_get i m' = if existsb (Nat.eqb i) is then Some v else map_get i m.
  Proof.
    induction is as [|a is IH]; intros m Hm; simpl; auto.
    destruct (IH _ (map_insert_sorted a v m Hm)) as [H1 H2]. split; auto. intros i. rewrite H2.
    destruct (i =? a) eqn:E; simpl.
    - apply Nat.eqb_eq in E. subst. rewrite map_get_insert_same by exact Hm. destruct (existsb _ _); reflexivity.
    - apply Nat.eqb_neq in E. rewrite map_get_insert_other by exact E. reflexivity.
  Qed.

  Lemma in_existsb i is : existsb (Nat.eqb i) is = true <-> In i is.
  Proof.
    rewrite existsb_exists. split.
    - intros (x & Hx & E). apply Nat.eqb_eq in E. subst. exact Hx.
    - intros H. exists i. split; auto. apply Nat.eqb_refl.
  Qed.

  Lemma merge_groups_spec todo : forall done st, GInv (length sets) (done ++ todo) -> MInv done st ->
    (exists st', foldM (merge_group sets) todo st = Ok st' /\ MInv (done ++ todo) st') \/
    ((exists p, foldM (merge_group sets) todo st = Panic p) /\ collision).
  Proof using Hwf.
    induction todo as [|[h is] todo IH]; intros done st HG HM; cbn [foldM].
    - rewrite app_nil_r in *. left. eauto.
    - pose proof HG as (Gn & Gi & _). pose proof HM as (M1 & M2 & M3 & M4 & M5 & M6).
      assert (Hin : In (h, is) (done ++ (h, is) :: todo)) by (apply in_or_app; right; left; reflexivity).
      destruct (Gi _ _ Hin) as (Hne & Hnd & His).
      assert (Hfresh : forall h' is' i, In (h', is') done -> In i is' -> ~ In i is).
      { intros h' is' i Hd Hi Hi'. assert (Hd' : In (h', is') (done ++ (h, is) :: todo)) by (apply in_or_app; left; exact Hd).
        destruct (Gi _ _ Hd') as (_ & _ & His'). apply His' in Hi as (_ & s & Hs & Eh). apply His in Hi' as (_ & s' & Hs' & Eh').
        rewrite Hs in Hs'. injection Hs' as <-. rewrite map_app in Gn. simpl in Gn. apply NoDup_remove_2 in Gn.
        apply Gn. apply in_or_app. left. rewrite <- Eh', Eh. apply (in_map fst) in Hd. exact Hd. }
      assert (Hpres : forall i, In i is -> nth_error (ms_presence st) i = Some true /\ exists t, nth_error sets i = Some t).
      { intros i Hi. pose proof Hi as Hi'. apply His in Hi' as (Hlt & s & Hs & _). split; eauto.
        apply M6; auto. intros h' is' Hd C. exact (Hfresh _ _ _ Hd C Hi). }
      assert (Emg : merge_group sets st (h, is) = (let* (s, presence) := merge_sets sets is (ms_presence st) in
        Ok (MState presence (fold_left (fun m i => map_insert i (length (ms_result st)) m) is (ms_map st))
              (index_set_insert (ms_result st) s)))) by reflexivity.
      rewrite Emg. clear Emg. unfold merge_sets.
      destruct is as [|i0 is0]; [tauto|]. set (is := i0 :: is0) in *.
      destruct (Hpres i0 (or_introl eq_refl)) as [Hp0 [s0 Hs0]].
      rewrite (take_set_ok _ _ _ Hp0 Hs0). cbn [bind].
      assert (Hw0 : wf_set s0) by (apply Hwf; eauto using nth_error_In).
      inversion Hnd as [|x y Hni Hnd0]; subst x y.
      destruct (merge_rest_spec is0 s0 (update_nth i0 (fun _ => false) (ms_presence st)) Hw0 Hnd0)
        as [(s' & pr' & E & H1 & H2 & H3 & H4 & H5 & H6)|[[p E] (j & t & Hj & Htj & Hc)]].
      { intros i Hi. destruct (Hpres i (or_intror Hi)) as [Ha Hb]. split; auto.
        rewrite nth_error_update_other; auto. intros ->. tauto. }
      + rewrite E. cbn [bind].
        set (st1 := MState pr' (fold_left (fun m i => map_insert i (length (ms_result st)) m) is (ms_map st))
                      (index_set_insert (ms_result st) s')).
        assert (Hcore0 : forall i s, In i is -> nth_error sets i = Some s -> core s = core s').
        { intros i s [<-|Hi] Hs; [rewrite Hs0 in Hs; injection Hs as <-; auto|]. rewrite (H3 _ _ Hi Hs). auto. }
        assert (Hh0 : hash (core s0) = h).
        { destruct (proj1 (His i0) (or_introl eq_refl)) as (_ & s & Hs & Eh). rewrite Hs0 in Hs. injection Hs as <-. exact Eh. }
        assert (Hnew : index_set_insert (ms_result st) s' = ms_result st ++ [s']).
        { unfold index_set_insert. destruct (is_contains (ms_result st) s') eqn:Ec; auto. exfalso.
          apply is_contains_In in Ec. apply In_nth_error in Ec as [j Hj].
          pose proof (nth_error_lt _ _ _ Hj) as Hlt. rewrite M1 in Hlt.
          destruct (nth_error done j) as [[h' is']|] eqn:Ed; [|apply nth_error_None in Ed; lia].
          destruct (M2 _ _ _ Ed) as (t & Ht & _ & Hct & _). rewrite Hj in Ht. injection Ht as <-.
          apply nth_error_In in Ed.
          assert (Hd' : In (h', is') (done ++ (h, is) :: todo)) by (apply in_or_app; left; exact Ed).
          destruct (Gi _ _ Hd') as (Hne' & _ & His'). destruct is' as [|i' is']; [tauto|].
          destruct (proj1 (His' i') (or_introl eq_refl)) as (_ & s & Hs & Eh).
          pose proof (Hct _ _ (or_introl eq_refl) Hs) as Ecs.
          apply (NoDup_remove_2 (map fst done) (map fst todo) h); [rewrite map_app in Gn; exact Gn|].
          apply in_or_app. left. replace h with h'; [apply (in_map fst) in Ed; exact Ed|].
          rewrite <- Eh, Ecs, H2. exact Hh0. }
        destruct (map_inserts (length (ms_result st)) is (ms_map st) M3) as [Hm1 Hm2].
        destruct (IH (done ++ [(h, is)]) st1) as [(st' & E' & HM')|[[p E'] Hc]].
        * rewrite <- app_assoc. exact HG.
        * unfold MInv, st1. cbn [ms_result ms_map ms_presence]. rewrite Hnew. split; [|split; [|split; [|split; [|split]]]].
          -- rewrite !app_length. simpl. lia.
          -- intros j h' is' Hj. destruct (Nat.lt_ge_cases j (length done)) as [Hlt|Hge].
             ++ rewrite nth_error_app1 in Hj by exact Hlt. destruct (M2 _ _ _ Hj) as (t & Ht & Hrest). exists t. split; auto.
                rewrite nth_error_app1; auto. rewrite M1. exact Hlt.
             ++ rewrite nth_error_app2 in Hj by exact Hge. destruct (j - length done) as [|m] eqn:Ej; [|destruct m; discriminate].
                injection Hj as <- <-. exists s'. split.
                ** rewrite nth_error_app2 by lia. rewrite M1, Ej. reflexivity.
                ** split; auto. split; auto. intros p d k. rewrite H4. split.
                   --- intros [H|(i & t & Hi & Ht & H)]; [exists i0, s0|exists i, t]; simpl; auto.
                   --- intros (i & t & [<-|Hi] & Ht & H); [left|right; eauto]. rewrite Hs0 in Ht. injection Ht as <-. exact H.
          -- exact Hm1.
          -- intros i j. rewrite Hm2. destruct (existsb (Nat.eqb i) is) eqn:Ex.
             ++ apply in_existsb in Ex. split.
                ** intros Eq. injection Eq as <-. exists h, is. split; auto. rewrite M1. apply nth_error_snoc.
                ** intros (h' & is' & Hj & Hi). f_equal. destruct (Nat.lt_ge_cases j (length done)) as [Hlt|Hge].
                   --- rewrite nth_error_app1 in Hj by exact Hlt. exfalso. exact (Hfresh _ _ _ (nth_error_In _ _ Hj) Hi Ex).
                   --- apply nth_error_lt in Hj. rewrite app_length in Hj. simpl in Hj. lia.
             ++ rewrite M4. split.
                ** intros (h' & is' & Hj & Hi). exists h', is'. split; auto. rewrite nth_error_app1; auto. apply nth_error_lt in Hj. exact Hj.
                ** intros (h' & is' & Hj & Hi). exists h', is'. split; auto. destruct (Nat.lt_ge_cases j (length done)) as [Hlt|Hge].
                   --- rewrite nth_error_app1 in Hj by exact Hlt. exact Hj.
                   --- rewrite nth_error_app2 in Hj by exact Hge. destruct (j - length done) as [|m] eqn:Ej; [|destruct m; discriminate].
                       injection Hj as <- <-. apply in_existsb in Hi. congruence.
          -- rewrite H5, update_nth_length. exact M5.
          -- intros i Hi Hno.
             assert (Hni' : ~ In i is) by (apply (Hno h); apply in_or_app; right; left; reflexivity).
             rewrite H6 by (intros C; apply Hni'; right; exact C).
             rewrite nth_error_update_other by (intros ->; apply Hni'; left; reflexivity).
             apply M6; auto. intros h' is' Hd. apply (Hno h'). apply in_or_app; left; exact Hd.
        * left. exists st'. split; [exact E'|]. rewrite <- app_assoc in HM'. exact HM'.
        * right. split; [exists p; exact E'|exact Hc].
      + rewrite E. cbn [bind]. right. split; [eauto|]. exists j, i0, t, s0. split; auto. split; auto. split; auto.
        destruct (proj1 (His j) (or_intror Hj)) as (_ & t' & Ht' & Eh). rewrite Htj in Ht'. injection Ht' as <-.
        destruct (proj1 (His i0) (or_introl eq_refl)) as (_ & s' & Hs' & Eh'). rewrite Hs0 in Hs'. injection Hs' as <-. congruence.
  Qed.

  (** What merging gives. *)
  Record merged (lalr : list item_set) (m : list (nat * nat)) : Prop := {
    mg_total : forall i s, nth_error sets i = Some s ->
      exists j t, map_get i m = Some j /\ nth_error lalr j = Some t /\ core t = core s;
    mg_source : forall i j, map_get i m = Some j -> exists s t, nth_error sets i = Some s /\ nth_error lalr j = Some t;
    mg_onto : forall j t, nth_error lalr j = Some t -> wf_set t /\ exists i, map_get i m = Some j;
    mg_same : forall i i' s s' j j', nth_error sets i = Some s -> nth_error sets i' = Some s' ->
      map_get i m = Some j -> map_get i' m = Some j' -> (j = j' <-> core s = core s');
    mg_has : forall j t, nth_error lalr j = Some t -> forall p d k, has t p d k <->
      exists i s, map_get i m = Some j /\ nth_error sets i = Some s /\ has s p d k;
    mg_zero : sets <> [] -> map_get 0 m = Some 0 }.

  Lemma merge_cores_spec :
    (exists lalr m, merge_cores hash sets = Ok (lalr, m) /\ merged lalr m /\ collision_free hash sets) \/
    ((exists p, merge_cores hash sets = Panic p) /\ collision).
  Proof using Hwf.
    unfold merge_cores. pose proof groups as HG.
    destruct (merge_groups_spec (group_cores hash 0 sets []) [] (MState (map (fun _ => true) sets) [] [])) as [(st & E & HM)|[[p E] Hc]].
    - exact HG.
    - split; [reflexivity|]. split; [intros [|j] h is C; discriminate|]. split; [exact I|]. split.
      + intros i j. simpl. split; [discriminate|]. intros (h & is & C & _). destruct j; discriminate.
      + cbn [ms_presence]. split; [apply map_length|]. intros i Hi _. rewrite nth_error_map.
        destruct (nth_error sets i) eqn:En; [reflexivity|]. apply nth_error_None in En. lia.
    - rewrite E. cbn [bind]. left. exists (ms_result st), (ms_map st). split; auto.
      simpl app in HM. set (gs := group_cores hash 0 sets []) in *.
      destruct HG as (Gn & Gi & Gc & G0). destruct HM as (M1 & M2 & M3 & M4 & _).
      assert (Hgrp : forall i s, nth_error sets i = Some s -> exists j is, nth_error gs j = Some (hash (core s), is) /\ In i is).
      { intros i s Hs. assert (Hg : in_group (length sets) (hash (core s)) i).
        { split; [apply nth_error_lt in Hs; exact Hs|eauto]. }
        pose proof (Gc _ _ Hg) as Hin. apply in_map_iff in Hin as ([h is] & Eh & Hin). simpl in Eh. subst h.
        destruct (Gi _ _ Hin) as (_ & _ & His). apply In_nth_error in Hin as [j Hj]. exists j, is. split; auto. apply His, Hg. }
      assert (Hsrc : forall i j, map_get i (ms_map st) = Some j -> exists s t is,
          nth_error sets i = Some s /\ nth_error (ms_result st) j = Some t /\ core s = core t /\ nth_error gs j = Some (hash (core s), is) /\ In i is).
      { intros i j Hj. apply M4 in Hj as (h & is & Hj & Hi). destruct (M2 _ _ _ Hj) as (t & Ht & _ & Hc & _).
        destruct (Gi _ _ (nth_error_In _ _ Hj)) as (_ & _ & His). pose proof Hi as Hi'. apply His in Hi' as (_ & s & Hs & <-).
        exists s, t, is. split; auto. split; auto. split; [eauto|]. auto. }
      assert (Huniq : forall (l : list (N * list nat)) a b h x y, NoDup (map fst l) -> nth_error l a = Some (h, x) -> nth_error l b = Some (h, y) -> a = b).
      { clear. intros l a b h x y Hn Ha Hb. eapply (proj1 (NoDup_nth_error (map fst l)) Hn).
        - rewrite map_length. apply nth_error_lt in Ha. exact Ha.
        - rewrite !nth_error_map, Ha, Hb. reflexivity. }
      split; [|].
      2: { intros s s' Hs Hs' Eh. apply In_nth_error in Hs as [i Hi]. apply In_nth_error in Hs' as [i' Hi'].
           destruct (Hgrp i s Hi) as (j & is & Hj & Hin). destruct (Hgrp i' s' Hi') as (j' & is' & Hj' & Hin').
           change (hash (core s) = hash (core s')) in Eh. rewrite <- Eh in Hj'.
           assert (j = j') as <- by (exact (Huniq gs j j' _ _ _ Gn Hj Hj')). rewrite Hj in Hj'. injection Hj' as <-.
           destruct (M2 _ _ _ Hj) as (t & _ & _ & Hc & _). change (core s = core s'). rewrite (Hc i s Hin Hi), (Hc i' s' Hin' Hi'). reflexivity. }
      constructor.
      + intros i s Hs. destruct (Hgrp i s Hs) as (j & is & Hj & Hi). destruct (M2 _ _ _ Hj) as (t & Ht & _ & Hc & _).
        exists j, t. split; [apply M4; eauto|]. split; auto. symmetry. eauto.
      + intros i j Hj. destruct (Hsrc _ _ Hj) as (s & t & is & H1 & H2 & _). eauto.
      + intros j t Hj. pose proof (nth_error_lt _ _ _ Hj) as Hlt. rewrite M1 in Hlt.
        destruct (nth_error gs j) as [[h is]|] eqn:Eg; [|apply nth_error_None in Eg; lia].
        destruct (M2 _ _ _ Eg) as (t' & Ht' & Hw & _). rewrite Hj in Ht'. injection Ht' as <-. split; auto.
        destruct (Gi _ _ (nth_error_In _ _ Eg)) as (Hne & _ & _). destruct is as [|i is]; [tauto|].
        exists i. apply M4. exists h, (i :: is). split; auto. left; reflexivity.
      + intros i i' s s' j j' Hs Hs' Hj Hj'.
        destruct (Hsrc _ _ Hj) as (s1 & t & is & A1 & A2 & A3 & A4 & A5). rewrite Hs in A1. injection A1 as <-.
        destruct (Hsrc _ _ Hj') as (s2 & t' & is' & B1 & B2 & B3 & B4 & B5). rewrite Hs' in B1. injection B1 as <-.
        split.
        * intros ->. rewrite A2 in B2. injection B2 as <-. congruence.
        * intros Ec. rewrite <- Ec in B4.
          exact (Huniq gs j j' _ _ _ Gn A4 B4).
      + intros j t Hj p d k. pose proof (nth_error_lt _ _ _ Hj) as Hlt. rewrite M1 in Hlt.
        destruct (nth_error gs j) as [[h is]|] eqn:Eg; [|apply nth_error_None in Eg; lia].
        destruct (M2 _ _ _ Eg) as (t' & Ht' & Hw & _ & Hh). rewrite Hj in Ht'. injection Ht' as <-. rewrite Hh. split.
        * intros (i & s & Hi & Hs & Hx). exists i, s. split; auto. apply M4. eauto.
        * intros (i & s & Hi & Hs & Hx). exists i, s. split; auto. apply M4 in Hi as (h' & is' & Hi & Hin).
          rewrite Eg in Hi. injection Hi as <- <-. exact Hin.
      + intros Hne. destruct G0 as (h & is & gs' & Eg); [destruct sets; [tauto|simpl; lia]|].
        apply M4. exists h, (0 :: is). split; [rewrite Eg; reflexivity|left; reflexivity].
    - rewrite E. cbn [bind]. right. split; eauto.
  Qed.
End Groups.

(** ** Independence of the hash function *)
Section Indep.
  Variables (h1 h2 : list item -> N) (sets : list item_set).
  Hypothesis H1 : collision_free h1 sets.
  Hypothesis H2 : collision_free h2 sets.

  Definition grp_rel (a b : N * list nat) : Prop :=
    snd a = snd b /\ exists s, In s sets /\ fst a = h1 (core s) /\ fst b = h2 (core s).

  Lemma group_push_rel s i l l' : In s sets -> Forall2 grp_rel l l' ->
    Forall2 grp_rel (group_push (h1 (core s)) i l) (group_push (h2 (core s)) i l').
  Proof using H1 H2.
    intros Hs. induction 1 as [|[ha a] [hb b] l l' (E & s' & Hs' & Ea & Eb) HF IH]; cbn [group_push].
    - constructor; [|constructor]. split; auto. exists s. auto.
    - simpl in E, Ea, Eb. subst b ha hb.
      destruct (h1 (core s) =? h1 (core s'))%N eqn:E1, (h2 (core s) =? h2 (core s'))%N eqn:E2.
      + constructor; auto. split; auto. exists s'. auto.
      + exfalso. apply N.eqb_eq in E1. apply N.eqb_neq in E2. apply E2. f_equal. apply (H1 s s'); auto.
      + exfalso. apply N.eqb_neq in E1. apply N.eqb_eq in E2. apply E1. f_equal. apply (H2 s s'); auto.
      + constructor; auto. split; auto. exists s'. auto.
  Qed.
  Lemma group_cores_rel l : forall i a b, incl l sets -> Forall2 grp_rel a b ->
    Forall2 grp_rel (group_cores h1 i l a) (group_cores h2 i l b).
  Proof using H1 H2.
    induction l as [|s l IH]; intros i a b Hl HF; cbn [group_cores]; auto. apply IH.
    - intros x Hx. apply Hl. right; exact Hx.
    - apply group_push_rel; auto. apply Hl. left; reflexivity.
  Qed.

  Lemma merge_cores_indep : merge_cores h1 sets = merge_cores h2 sets.
  Proof using H1 H2.
    unfold merge_cores. pose proof (group_cores_rel sets 0 [] [] (fun x H => H) (Forall2_nil _)) as HF.
    assert (G : forall a b st, Forall2 grp_rel a b -> foldM (merge_group sets) a st = foldM (merge_group sets) b st).
    { intros a b st HF'. revert st. induction HF' as [|[ha a'] [hb b'] a b (E & _) HF' IH]; intros st; cbn [foldM]; auto.
      simpl in E. subst b'. unfold merge_group at 1 3. cbn [fst snd].
      destruct (merge_sets sets a' (ms_presence st)) as [[s pr]| |]; cbn [bind]; auto. }
    rewrite (G _ _ _ HF). reflexivity.
  Qed.
End Indep.
