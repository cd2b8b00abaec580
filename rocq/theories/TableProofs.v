(** Proofs about the parsing tables. *)
From Verif Require Import Base Grammar GrammarSpec GrammarProofs First Item ItemSpec ItemProofs Table
  MergeProofs TableSpec.

Lemma NoDup_app_iff {A} (l l' : list A) : NoDup (l ++ l') <-> NoDup l /\ NoDup l' /\ (forall x, In x l -> ~ In x l').
Proof.
  induction l as [|a l IH]; simpl.
  - split; [intros H; split; [constructor|split; [exact H|intros x []]]|intros (_ & H & _); exact H].
  - split.
    + intros H. inversion H as [|x y Hni Hnd]; subst. apply IH in Hnd as (H1 & H2 & H3). split; [|split; auto].
      * constructor; auto. intros C. apply Hni, in_or_app. auto.
      * intros x [<-|Hx]; auto. intros C. apply Hni, in_or_app. auto.
    + intros (H1 & H2 & H3). inversion H1 as [|x y Hni Hnd]; subst. constructor.
      * intros C. apply in_app_or in C as [C|C]; auto. exact (H3 a (or_introl eq_refl) C).
      * apply IH. split; auto.
Qed.

(** ** Tables as maps *)
Section Tbl.
  Context {K V : Type} `{HO : Ord K}.
  Definition tbl_ok (t : table K V) : Prop := msorted t /\ forall i m, In (i, m) t -> msorted m.

  Lemma tbl_ok_nil : tbl_ok [].
  Proof. split; [exact I|intros i m []]. Qed.
  Lemma tbl_insert_ok t i k v : tbl_ok t -> tbl_ok (tbl_insert t i k v).
  Proof.
    intros [H1 H2]. split; [apply map_alter_sorted, H1|]. intros j mm Hin. unfold tbl_insert in Hin.
    assert (Hj : map_get j (map_alter i (fun o => map_insert k v (match o with Some m => m | None => [] end)) t) = Some mm).
    { apply In_map_get; [apply map_alter_sorted, H1|exact Hin]. }
    destruct (Nat.eq_dec j i) as [->|Hne].
    - rewrite map_get_alter_same in Hj by exact H1. injection Hj as <-. apply map_insert_sorted.
      destruct (map_get i t) eqn:E; [|exact I]. apply map_get_In in E. eauto.
    - rewrite map_get_alter_other in Hj by exact Hne. apply map_get_In in Hj. eauto.
  Qed.
  Lemma tbl_get_nil i k : tbl_get (@nil (nat * list (K * V))) i k = None.
  Proof. reflexivity. Qed.
  Lemma tbl_get_same t i k v : tbl_ok t -> tbl_get (tbl_insert t i k v) i k = Some v.
  Proof.
    intros [H1 H2]. unfold tbl_get, tbl_insert. rewrite map_get_alter_same by exact H1.
    apply map_get_insert_same. destruct (map_get i t) eqn:E; [|exact I]. apply map_get_In in E. eauto.
  Qed.
  Lemma tbl_get_other t i k v i' k' : tbl_ok t -> (i', k') <> (i, k) ->
    tbl_get (tbl_insert t i k v) i' k' = tbl_get t i' k'.
  Proof.
    intros [H1 H2] Hne. unfold tbl_get, tbl_insert. destruct (Nat.eq_dec i' i) as [->|Hi].
    - rewrite map_get_alter_same by exact H1. rewrite map_get_insert_other by congruence.
      destruct (map_get i t); reflexivity.
    - rewrite map_get_alter_other by exact Hi. reflexivity.
  Qed.
End Tbl.

(** ** Sequences of guarded insertions *)
Definition put3 (t : action_table) (e : nat * nat * action) : res action_table :=
  action_put t (fst (fst e)) (snd (fst e)) (snd e).

Lemma puts_spec l : forall t, tbl_ok t ->
  (forall ik, In ik (map fst l) -> tbl_get t (fst ik) (snd ik) = None) ->
  (exists t', foldM put3 l t = Ok t' /\ tbl_ok t' /\ NoDup (map fst l) /\
     forall i k a, tbl_get t' i k = Some a <-> tbl_get t i k = Some a \/ In ((i, k), a) l) \/
  (foldM put3 l t = Panic PConflict /\ ~ NoDup (map fst l)).
Proof.
  induction l as [|[[i k] a] l IH]; intros t Ht Hn; cbn [foldM].
  - left. exists t. split; auto. split; auto. split; [constructor|]. intros i k a. simpl. tauto.
  - unfold put3 at 1 3. cbn [fst snd]. unfold action_put.
    rewrite (Hn (i, k) (or_introl eq_refl) : tbl_get t i k = None). cbn [bind].
    destruct (in_dec (fun x y : nat * nat => ltac:(decide equality; apply Nat.eq_dec)) (i, k) (map fst l)) as [Hin|Hni].
    + right. split.
      * assert (G : forall l t, tbl_ok t -> In (i, k) (map fst l) -> tbl_get t i k <> None -> foldM put3 l t = Panic PConflict).
        { clear. induction l as [|[[i' k'] a'] l IH]; intros t Ht Hin Hne; [destruct Hin|]. cbn [foldM].
          unfold put3 at 1. cbn [fst snd]. unfold action_put.
          destruct (tbl_get t i' k') as [b|] eqn:E; [reflexivity|]. cbn [bind].
          destruct Hin as [Hin|Hin]; [simpl in Hin; injection Hin as -> ->; congruence|].
          apply IH; [apply tbl_insert_ok, Ht|exact Hin|]. rewrite tbl_get_other; [exact Hne|exact Ht|].
          intros C. injection C as <- <-. congruence. }
        apply G; [apply tbl_insert_ok, Ht|exact Hin|]. rewrite tbl_get_same by exact Ht. discriminate.
      * intros C. inversion C; subst. auto.
    + destruct (IH (tbl_insert t i k a) (tbl_insert_ok _ _ _ _ Ht)) as [(t' & E & H1 & H2 & H3)|[E H]].
      * intros ik Hik. rewrite tbl_get_other; auto; [|intros C; apply Hni; rewrite <- C; destruct ik; exact Hik].
        apply Hn. right. exact Hik.
      * left. exists t'. split; auto. split; auto. split; [simpl; constructor; auto|].
        intros i' k' b. rewrite H3. simpl. destruct (in_dec (fun x y : nat * nat => ltac:(decide equality; apply Nat.eq_dec)) (i', k') [(i, k)]) as [[Eq|[]]|Hne].
        -- injection Eq as <- <-. rewrite tbl_get_same by exact Ht.
           split; [intros [H|H]|intros [H|[H|H]]]; auto.
           ++ injection H as <-. auto.
           ++ rewrite (Hn (i, k) (or_introl eq_refl) : tbl_get t i k = None) in H. discriminate.
           ++ injection H as <-. auto.
        -- rewrite tbl_get_other by (try exact Ht; intros C; apply Hne; left; auto).
           split; [intros [H|H]|intros [H|[H|H]]]; auto. exfalso. apply Hne. left. injection H as <- <- _. reflexivity.
      * right. split; auto. intros C. inversion C; auto.
Qed.

Lemma is_index_some l (s : item_set) k : is_index l s = Some k -> nth_error l k = Some s.
Proof.
  unfold is_index. intros H. apply find_index_some in H as ((y & Hy & E) & _). apply eqb_eq in E. congruence.
Qed.
Lemma is_index_none l (s : item_set) : is_index l s = None <-> ~ In s l.
Proof.
  unfold is_index. rewrite find_index_none. split.
  - intros H Hin. specialize (H s Hin). simpl in H. rewrite eqb_refl in H. discriminate.
  - intros H x Hx. apply eqb_neq. intros ->. auto.
Qed.

(** The closure works on each triple separately. *)
Lemma clo_single g F K p d k : clo g F K p d k -> exists p0 d0 k0, K p0 d0 k0 /\
  clo g F (fun p d k => p = p0 /\ d = d0 /\ k = k0) p d k.
Proof.
  induction 1 as [p d k H|p d k a q pq b k' Hc (p0 & d0 & k0 & H0 & IH) Hs Hq Ha HF Ht].
  - exists p, d, k. split; auto. apply clo_base. auto.
  - exists p0, d0, k0. split; auto. refine (clo_rule _ _ _ _ _ _ _ _ _ _ _ IH Hs Hq Ha HF Ht).
Qed.

Section Built.
  Variables (g : grammar) (start : str).
  Hypothesis W : wf_grammar g start.
  Variables (lr0 : list item_set).
  Hypothesis Hlr : items g = Ok lr0.
  Variables (lalr : list item_set) (m : list (nat * nat)).
  Hypothesis Hm : merged lr0 lalr m.

  Lemma lr_final : (exists i0 l, lr0 = i0 :: l /\ represents i0 (clo g (F_code g) init_set)) /\ NoDup lr0 /\
    (forall s, In s lr0 -> state_of g s) /\
    (forall I, lr g I -> exists s, In s lr0 /\ represents s I) /\ Good g.
  Proof using W Hlr.
    destruct (items_gen g _ W) as [(i0 & C & E & _ & Hr & ((l & El) & Hn & Hs) & Ha & HG)|[H _]]; [|destruct (H _ Hlr)].
    rewrite Hlr in E. injection E as <-. eauto 10.
  Qed.

  Lemma lr_wf s : In s lr0 -> wf_set s.
  Proof using W Hlr. intros H. apply lr_final, H. Qed.

  Lemma lr_zero : exists i0, nth_error lr0 0 = Some i0 /\ represents i0 (clo g (F_code g) init_set) /\ map_get 0 m = Some 0.
  Proof using W Hlr Hm.
    destruct lr_final as ((i0 & l & E & Hr) & _). exists i0. rewrite E. split; auto. split; auto.
    apply (mg_zero _ _ _ Hm). rewrite E. discriminate.
  Qed.

  (** The LR(1) states and their LALR state. *)
  Lemma lalr_member i j s t : map_get i m = Some j -> nth_error lr0 i = Some s -> nth_error lalr j = Some t ->
    core s = core t /\ (forall p d k, has s p d k -> has t p d k).
  Proof using Hm.
    intros Hi Hs Ht. split.
    - destruct (mg_total _ _ _ Hm i s Hs) as (j' & t' & E & Ht' & Ec). rewrite Hi in E. injection E as <-. congruence.
    - intros p d k H. apply (mg_has _ _ _ Hm j t Ht). eauto.
  Qed.
  Lemma lalr_from j t p d k : nth_error lalr j = Some t -> has t p d k ->
    exists i s, map_get i m = Some j /\ nth_error lr0 i = Some s /\ has s p d k /\ core s = core t /\
      (forall p d k, has s p d k -> has t p d k).
  Proof using Hm.
    intros Ht H. apply (mg_has _ _ _ Hm j t Ht) in H as (i & s & Hi & Hs & H).
    exists i, s. split; auto. split; auto. split; auto. eapply lalr_member; eauto.
  Qed.
  Lemma lalr_some j t : nth_error lalr j = Some t ->
    exists i s, map_get i m = Some j /\ nth_error lr0 i = Some s /\ core s = core t /\
      (forall p d k, has s p d k -> has t p d k).
  Proof using Hm.
    intros Ht. destruct (mg_onto _ _ _ Hm j t Ht) as [_ [i Hi]]. destruct (mg_source _ _ _ Hm i j Hi) as (s & t' & Hs & _).
    exists i, s. split; auto. split; auto. eapply lalr_member; eauto.
  Qed.
  Lemma lalr_wf t : In t lalr -> wf_set t.
  Proof using Hm. intros H. apply In_nth_error in H as [j Hj]. apply (mg_onto _ _ _ Hm j t Hj). Qed.
  Lemma lalr_nonempty t : In t lalr -> exists p d k, has t p d k.
  Proof using W Hlr Hm.
    intros H. apply In_nth_error in H as [j Hj]. destruct (lalr_some j t Hj) as (i & s & _ & Hs & _ & Hi).
    destruct lr_final as (_ & _ & Hst & _). destruct (Hst s (nth_error_In _ _ Hs)) as (Hw & I & HI & Hr).
    destruct (lr_nonempty g I HI) as (p & d & k & Hk). exists p, d, k. apply Hi, Hr, Hk.
  Qed.

  Lemma lalr_core j j' t t' : nth_error lalr j = Some t -> nth_error lalr j' = Some t' -> core t = core t' -> j = j'.
  Proof using Hm.
    intros Ht Ht' E. destruct (lalr_some j t Ht) as (i & s & Hi & Hs & Ec & _).
    destruct (lalr_some j' t' Ht') as (i' & s' & Hi' & Hs' & Ec' & _).
    apply (mg_same _ _ _ Hm i i' s s' j j' Hs Hs' Hi Hi'). congruence.
  Qed.

  Lemma state_valid s : state_of g s -> forall p d k, has s p d k ->
    exists pr, nth_error (g_prods g) p = Some pr /\ d <= length (p_syms pr) /\ k < length (g_tokens g).
  Proof using W. intros (Hw & I & HI & Hr) p d k H. apply Hr in H. eapply (lr_valid g _ W); eauto. Qed.

  Lemma lalr_valid t : In t lalr -> forall p d k, has t p d k ->
    exists pr, nth_error (g_prods g) p = Some pr /\ d <= length (p_syms pr) /\ k < length (g_tokens g).
  Proof using W Hlr Hm.
    intros Ht p d k H. apply In_nth_error in Ht as [j Hj]. destruct (lalr_from j t p d k Hj H) as (i & s & _ & Hs & Hk & _).
    destruct lr_final as (_ & _ & Hst & _). eapply state_valid; eauto using nth_error_In.
  Qed.

  (** goto succeeds on LALR states. *)
  Lemma lalr_clo_ready t x : In t lalr -> ready g (clo g (F_code g) (move g (has t) x)).
  Proof using W Hlr Hm.
    intros Ht p d k Hc. apply clo_single in Hc as (p0 & d0 & k0 & (d' & -> & H & Hx) & Hc).
    apply In_nth_error in Ht as [j Hj]. destruct (lalr_from _ _ _ _ _ Hj H) as (i & s & _ & Hs & Hk & _).
    destruct lr_final as (_ & _ & Hst & _ & HG). destruct (Hst s (nth_error_In _ _ Hs)) as (Hw & I & HI & Hr).
    assert (HI' : lr g (clo g (F_code g) (move g I x))).
    { apply lr_goto; auto. exists p0, (S d'), k0, d'. split; auto. split; auto. apply Hr, Hk. }
    apply (HG _ HI'). eapply clo_mono; [|exact Hc]. intros p1 d1 k1 (-> & -> & ->).
    exists d'. split; auto. split; auto. apply Hr, Hk.
  Qed.

  Lemma lalr_goto t x : In t lalr -> exists u, goto g t x = Ok u /\ wf_set u /\
    represents u (clo g (F_code g) (move g (has t) x)).
  Proof using W Hlr Hm.
    intros Ht. destruct (goto_spec g _ W t x (lalr_wf t Ht)) as [(u & E & Hw & Hr & _)|[_ H]].
    - intros p d k H. destruct (lalr_valid t Ht _ _ _ H) as (pr & Hp & _). eauto.
    - exists u. auto.
    - exfalso. apply H. apply lalr_clo_ready, Ht.
  Qed.

  (** ** The target of a transition *)
  Definition target (t : item_set) (x : sym) (j : nat) : Prop :=
    exists u t', goto g t x = Ok u /\ nth_error lalr j = Some t' /\ core t' = core u /\
      (forall p d k, has u p d k -> has t' p d k) /\ (In u lr0 \/ In u lalr).

  Lemma lr_to_lalr u : In u lr0 -> exists j t', nth_error lalr j = Some t' /\ core t' = core u /\
    (forall p d k, has u p d k -> has t' p d k) /\ forall k, is_index lr0 u = Some k -> map_get k m = Some j.
  Proof using W Hlr Hm.
    intros Hu. destruct (is_index lr0 u) as [k|] eqn:E; [|apply is_index_none in E; tauto].
    pose proof (is_index_some _ _ _ E) as Hk. destruct (mg_total _ _ _ Hm k u Hk) as (j & t' & Hj & Ht' & Ec).
    exists j, t'. split; auto. split; auto. split; [eapply lalr_member; eauto|]. intros k' Ek. injection Ek as <-. exact Hj.
  Qed.

  Lemma compute_goto_spec t x : In t lalr -> exists o, compute_goto g lalr lr0 m t x = Ok o /\
    forall j, o = Some j <-> target t x j.
  Proof using W Hlr Hm.
    intros Ht. destruct (lalr_goto t x Ht) as (u & E & _). unfold compute_goto. rewrite E. cbn [bind].
    eexists. split; [reflexivity|]. intros j.
    destruct (is_index lr0 u) as [k|] eqn:Ek.
    - assert (Hu : In u lr0) by (apply is_index_some in Ek; eauto using nth_error_In).
      destruct (lr_to_lalr u Hu) as (j0 & t' & H1 & H2 & H3 & H4). rewrite Ek in H4. rewrite (H4 k eq_refl). split.
      + intros Eq. injection Eq as <-. exists u, t'. auto 10.
      + intros (u' & t1 & E' & Hj & Hc & _). rewrite E in E'. injection E' as <-. f_equal. eapply lalr_core; eauto. congruence.
    - apply is_index_none in Ek. destruct (is_index lalr u) as [j0|] eqn:El.
      + apply is_index_some in El. split.
        * intros Eq. injection Eq as <-. exists u, u. repeat split; auto. right. eauto using nth_error_In.
        * intros (u' & t1 & E' & Hj & Hc & _). rewrite E in E'. injection E' as <-. f_equal. eapply lalr_core; eauto.
      + apply is_index_none in El. split; [discriminate|].
        intros (u' & t1 & E' & _ & _ & _ & [C|C]); rewrite E in E'; injection E' as <-; tauto.
  Qed.

  Lemma target_fun t x j j' : target t x j -> target t x j' -> j = j'.
  Proof using Hm.
    intros (u & t1 & E & H1 & H2 & _) (u' & t1' & E' & H1' & H2' & _). rewrite E in E'. injection E' as <-.
    eapply lalr_core; eauto. congruence.
  Qed.

  Lemma goto_entry_spec i t tb nt : In t lalr -> exists o, (forall j, o = Some j <-> target t (SNon (snd nt)) j) /\
    goto_entry g lalr lr0 m i t tb nt = Ok (match o with Some j => tbl_insert tb i (snd nt) j | None => tb end).
  Proof using W Hlr Hm.
    intros Ht. destruct (compute_goto_spec t (SNon (snd nt)) Ht) as (o & E & Ho). exists o. split; auto.
    unfold compute_goto in E. unfold goto_entry. destruct (goto g t (SNon (snd nt))) as [u| |]; cbn [bind] in *; try discriminate.
    injection E as E. destruct (is_index lr0 u) as [k|] eqn:Ek.
    - destruct (map_get k m) as [v|] eqn:Ev; [subst o; reflexivity|].
      assert (Hu : In u lr0) by (apply is_index_some in Ek; eauto using nth_error_In).
      destruct (lr_to_lalr u Hu) as (j0 & t' & _ & _ & _ & H4). rewrite (H4 k Ek) in Ev. discriminate.
    - destruct (is_index lalr u); subst o; reflexivity.
  Qed.

  (** ** The action table *)

  (** The entries one item wants to make. *)
  Definition item_puts (i : nat) (t : item_set) (e : item * list nat) : list (nat * nat * action) :=
    match dot_token g (fst e) with
    | Ok (Some x) =>
        if is_term x then
          match get_token_idx g x, compute_goto g lalr lr0 m t x with
          | Some k, Ok (Some j) => [((i, k), Shift j)]
          | _, _ => []
          end
        else []
    | Ok None => map (fun la => ((i, la), if (la =? EOF_IDX) && (fst (fst e) =? 0) then Accept else Reduce (fst (fst e)))) (snd e)
    | _ => []
    end.

  Lemma sym_in_tokens p d x : sym_at g p d x -> In x (g_tokens g).
  Proof using W. intros (pr & Hp & Hx). eapply (token_of_body _ _ W); eauto using nth_error_In. Qed.

  Lemma action_item_puts i t tb e : In t lalr -> In e t ->
    action_item g lalr lr0 m i t tb e = foldM put3 (item_puts i t e) tb.
  Proof using W Hlr Hm.
    intros Ht He. destruct e as [[p d] las]. unfold action_item, item_puts. cbn [fst snd].
    assert (Hv : exists pr, nth_error (g_prods g) p = Some pr).
    { destruct (lalr_wf t Ht) as [_ Hl]. destruct (Hl _ _ He) as [_ Hne]. destruct las as [|k las]; [tauto|].
      destruct (lalr_valid t Ht p d k) as (pr & Hp & _); [exists (k :: las); simpl; auto|eauto]. }
    destruct Hv as [pr Hp]. rewrite (dot_token_some g p d pr Hp). cbn [bind].
    destruct (nth_error (p_syms pr) d) as [x|] eqn:Ex.
    - destruct (is_term x) eqn:Et; [|reflexivity].
      assert (Hx : In x (g_tokens g)) by (apply (sym_in_tokens p d); exists pr; auto).
      destruct (proj1 (get_token_idx_In g x) Hx) as [k Ek]. rewrite Ek.
      destruct (compute_goto_spec t x Ht) as (o & E & _). rewrite E. cbn [bind]. destruct o as [j|]; [|reflexivity].
      cbn [foldM]. unfold put3. cbn [fst snd]. destruct (action_put tb i k (Shift j)); reflexivity.
    - clear He. revert tb. induction las as [|la las IH]; intros tb; cbn [foldM map]; auto.
      unfold reduce_entry at 1, put3 at 1. cbn [fst snd].
      destruct ((la =? EOF_IDX) && (p =? 0)) eqn:Ea.
      + apply andb_true_iff in Ea as [Ea _]. apply Nat.eqb_eq in Ea. subst la.
        destruct (action_put tb i EOF_IDX Accept); cbn [bind]; auto.
      + destruct (action_put tb i la (Reduce p)); cbn [bind]; auto.
  Qed.

  Definition state_puts (e : nat * item_set) : list (nat * nat * action) := flat_map (item_puts (fst e) (snd e)) (snd e).

  Lemma foldM_flat {A B S} (f : S -> A -> res S) (h : S -> B -> res S) (q : A -> list B) l : 
    (forall s a, In a l -> f s a = foldM h (q a) s) -> forall s, foldM f l s = foldM h (flat_map q l) s.
  Proof.
    induction l as [|a l IH]; intros H s; cbn [foldM flat_map]; auto. rewrite foldM_app, (H s a (or_introl eq_refl)).
    destruct (foldM h (q a) s); cbn [bind]; auto. apply IH. intros s' a' Ha. apply H. right; exact Ha.
  Qed.

  Lemma action_state_puts tb e : In (snd e) lalr -> action_state g lalr lr0 m tb e = foldM put3 (state_puts e) tb.
  Proof using W Hlr Hm.
    intros Ht. unfold action_state, state_puts. apply foldM_flat. intros s a Ha. apply action_item_puts; auto.
  Qed.

  Lemma enumerate_In {A} (l : list A) i x : In (i, x) (enumerate l) <-> nth_error l i = Some x.
  Proof.
    unfold enumerate. assert (G : forall l n, In (i, x) (combine (seq n (length l)) l) <-> exists j, i = n + j /\ nth_error l j = Some x).
    { clear. induction l as [|y l IH]; intros n; simpl.
      - split; [intros []|intros (j & _ & C); destruct j; discriminate].
      - rewrite IH. split.
        + intros [Eq|(j & -> & Hj)]; [injection Eq as <- <-; exists 0; split; [lia|reflexivity]|exists (S j); split; [lia|exact Hj]].
        + intros ([|j] & -> & Hj); [left; simpl in Hj; f_equal; [lia|congruence]|right; exists j; split; [lia|exact Hj]]. }
    rewrite G. split; [intros (j & -> & Hj); exact Hj|intros H; exists i; auto].
  Qed.

  Definition all_puts : list (nat * nat * action) := flat_map state_puts (enumerate lalr).

  Lemma action_puts_all tb : foldM (action_state g lalr lr0 m) (enumerate lalr) tb = foldM put3 all_puts tb.
  Proof using W Hlr Hm.
    apply foldM_flat. intros s [i t] Hin. apply action_state_puts. apply enumerate_In in Hin. eauto using nth_error_In.
  Qed.

  (** The entry an item makes under a token. *)
  Definition put_by (t : item_set) (p d k : nat) (a : action) : Prop :=
    (complete g p d /\ has t p d k /\ a = if (k =? 0) && (p =? 0) then Accept else Reduce p) \/
    (exists x j, sym_at g p d x /\ terminal x /\ tok g k x /\ (exists k', has t p d k') /\ target t x j /\ a = Shift j).

  Lemma is_term_terminal x : is_term x = true <-> terminal x.
  Proof.
    destruct x; simpl; split; try discriminate; auto; try (intros _ n; discriminate).
    intros H. exfalso. eapply H. reflexivity.
  Qed.

  Lemma item_puts_spec i t p d las i' k a : In t lalr -> In ((p, d), las) t ->
    In ((i', k), a) (item_puts i t ((p, d), las)) <-> i' = i /\ put_by t p d k a.
  Proof using W Hlr Hm.
    intros Ht He.
    assert (Hlas : forall k', has t p d k' <-> In k' las).
    { intros k'. split; [|intros H; exists las; auto]. intros (las' & H1 & H2).
      destruct (lalr_wf t Ht) as [Hs _].
      assert (las' = las) as -> by (apply (In_map_get _ _ _ Hs) in H1; apply (In_map_get _ _ _ Hs) in He; congruence). exact H2. }
    assert (Hne : exists k', has t p d k').
    { destruct (lalr_wf t Ht) as [_ Hl]. destruct (Hl _ _ He) as [_ Hne]. destruct las as [|k0 las]; [tauto|].
      exists k0. apply Hlas. left; reflexivity. }
    destruct (Hne) as [k0 Hk0]. destruct (lalr_valid t Ht p d k0 Hk0) as (pr & Hp & Hd & _).
    unfold item_puts. cbn [fst snd]. rewrite (dot_token_some g p d pr Hp).
    destruct (nth_error (p_syms pr) d) as [x|] eqn:Ex.
    - assert (Hx : sym_at g p d x) by (exists pr; auto).
      assert (Hnc : ~ complete g p d).
      { intros (pr' & Hp' & ->). rewrite Hp in Hp'. injection Hp' as <-. apply nth_error_lt in Ex. lia. }
      destruct (is_term x) eqn:Et.
      + destruct (proj1 (get_token_idx_In g x) (sym_in_tokens _ _ _ Hx)) as [kx Ek]. rewrite Ek.
        destruct (compute_goto_spec t x Ht) as (o & E & Ho). rewrite E.
        assert (Hiff : In ((i', k), a) (match o with Some j => [((i, kx), Shift j)] | None => [] end) <->
                  i' = i /\ k = kx /\ exists j, o = Some j /\ a = Shift j).
        { destruct o as [j|]; simpl; split.
          - intros [Eq|[]]. injection Eq as <- <- <-. eauto.
          - intros (-> & -> & j' & Eq & ->). injection Eq as <-. auto.
          - intros [].
          - intros (_ & _ & j & C & _). discriminate. }
        rewrite Hiff. unfold put_by. split.
        * intros (-> & -> & j & Ej & ->). split; auto. right. exists x, j.
          split; auto. split; [apply is_term_terminal, Et|]. split; [apply tok_idx, Ek|]. split; auto. split; auto. apply Ho, Ej.
        * intros (-> & [[C _]|(x' & j & (pr' & Hp' & Hx') & _ & Htk & _ & Htg & ->)]); [tauto|].
          rewrite Hp in Hp'. injection Hp' as <-. rewrite Ex in Hx'. injection Hx' as <-. split; auto.
          split; [apply tok_idx in Htk; congruence|]. exists j. split; auto. apply Ho, Htg.
      + split; [intros []|]. intros (_ & [[C _]|(x' & j & (pr' & Hp' & Hx') & Htm & _)]); [tauto|].
        rewrite Hp in Hp'. injection Hp' as <-. rewrite Ex in Hx'. injection Hx' as <-. apply is_term_terminal in Htm. congruence.
    - assert (Hc : complete g p d).
      { exists pr. split; auto. apply nth_error_None in Ex. lia. }
      rewrite in_map_iff. split.
      + intros (la & Eq & Hla). injection Eq as <- <- <-. split; auto. left. split; auto. split; auto. apply Hlas, Hla.
      + intros (-> & [(_ & Hk & ->)|(x' & j & (pr' & Hp' & Hx') & _)]).
        * exists k. split; auto. apply Hlas, Hk.
        * rewrite Hp in Hp'. injection Hp' as <-. congruence.
  Qed.

  Lemma put_by_has t p d k a : put_by t p d k a -> exists k', has t p d k'.
  Proof. intros [(_ & H & _)|(x & j & _ & _ & _ & H & _)]; eauto. Qed.

  Lemma state_puts_spec i t i' k a : In t lalr ->
    In ((i', k), a) (state_puts (i, t)) <-> i' = i /\ exists p d, put_by t p d k a.
  Proof using W Hlr Hm.
    intros Ht. unfold state_puts. cbn [fst snd]. rewrite in_flat_map. split.
    - intros ([[p d] las] & He & Hin). apply item_puts_spec in Hin as [-> H]; eauto.
    - intros (-> & p & d & H). destruct (put_by_has _ _ _ _ _ H) as (k' & las & He & _).
      exists ((p, d), las). split; auto. apply item_puts_spec; auto.
  Qed.

  Lemma all_puts_spec i k a : In ((i, k), a) all_puts <-> exists t p d, nth_error lalr i = Some t /\ put_by t p d k a.
  Proof using W Hlr Hm.
    unfold all_puts. rewrite in_flat_map. split.
    - intros ([i' t] & Hin & H). apply enumerate_In in Hin. apply state_puts_spec in H as (-> & p & d & H); eauto using nth_error_In.
    - intros (t & p & d & Ht & H). exists (i, t). split; [apply enumerate_In, Ht|].
      apply state_puts_spec; eauto using nth_error_In.
  Qed.

  (** No two items of a state want the same token. *)
  Definition one_each : Prop := forall i t p d a p' d' a' k, nth_error lalr i = Some t ->
    put_by t p d k a -> put_by t p' d' k a' -> (p, d) = (p', d').

  Lemma NoDup_flat {A B C} (q : A -> list B) (key : B -> C) (l : list A) : NoDup l ->
    (forall a, In a l -> NoDup (map key (q a))) ->
    (forall a a' b b', In a l -> In a' l -> In b (q a) -> In b' (q a') -> key b = key b' -> a = a') ->
    NoDup (map key (flat_map q l)).
  Proof.
    induction l as [|a l IH]; intros Hn H1 H2; simpl; [constructor|]. rewrite map_app. inversion Hn as [|x y Hni Hnd]; subst.
    apply NoDup_app_iff. split; [apply H1; left; reflexivity|]. split.
    - apply IH; auto.
      + intros a' Ha'. apply H1. right; exact Ha'.
      + intros a1 a2 b1 b2 Ha1 Ha2. apply H2; right; auto.
    - intros c Hc Hc'. apply in_map_iff in Hc as (b & <- & Hb). apply in_map_iff in Hc' as (b' & E & Hb').
      apply in_flat_map in Hb' as (a' & Ha' & Hb'). assert (a = a') as -> by (eapply H2; simpl; eauto). auto.
  Qed.
  Lemma NoDup_flat_inv {A B C} (q : A -> list B) (key : B -> C) (l : list A) : NoDup (map key (flat_map q l)) ->
    forall a a' b b', In a l -> In a' l -> In b (q a) -> In b' (q a') -> key b = key b' -> a = a'.
  Proof.
    induction l as [|a l IH]; intros H a1 a2 b1 b2 H1 H2 Hb1 Hb2 E; simpl in *; [destruct H1|].
    rewrite map_app in H. apply NoDup_app_iff in H as (_ & Hn2 & Hd).
    destruct H1 as [<-|H1], H2 as [<-|H2]; auto.
    - exfalso. apply (Hd (key b1)); [apply in_map, Hb1|]. rewrite E. apply in_map. apply in_flat_map. eauto.
    - exfalso. apply (Hd (key b2)); [apply in_map, Hb2|]. rewrite <- E. apply in_map. apply in_flat_map. eauto.
    - eapply IH; eauto.
  Qed.

  Lemma NoDup_keys (t : item_set) : wf_set t -> NoDup t.
  Proof. intros [Hs _]. apply (NoDup_map_inv fst). apply ssorted_NoDup. exact Hs. Qed.

  Lemma enumerate_NoDup {A} (l : list A) : NoDup (enumerate l).
  Proof.
    apply (NoDup_map_inv fst). unfold enumerate.
    assert (G : forall (l : list A) n, map fst (combine (seq n (length l)) l) = seq n (length l)).
    { clear. induction l as [|x l IH]; intros n; simpl; auto. f_equal. apply IH. }
    rewrite G. apply seq_NoDup.
  Qed.

  Lemma all_puts_NoDup : NoDup (map fst all_puts) <-> one_each.
  Proof using W Hlr Hm.
    split.
    - intros H i t p d a p' d' a' k Ht H1 H2.
      destruct (put_by_has _ _ _ _ _ H1) as (k1 & las & He & _). destruct (put_by_has _ _ _ _ _ H2) as (k2 & las' & He' & _).
      assert (Hti : In t lalr) by eauto using nth_error_In.
      assert (Hn : NoDup (map fst (state_puts (i, t)))).
      { unfold all_puts in H. assert (Hin : In (i, t) (enumerate lalr)) by (apply enumerate_In, Ht).
        apply in_split in Hin as (l1 & l2 & E). rewrite E, flat_map_app in H. simpl in H. rewrite !map_app in H.
        apply NoDup_app_iff in H as (_ & H & _). apply NoDup_app_iff in H as (H & _). exact H. }
      assert (E : ((p, d), las) = ((p', d'), las')).
      { apply (NoDup_flat_inv _ _ _ Hn ((p, d), las) ((p', d'), las') ((i, k), a) ((i, k), a') He He'); [| |reflexivity].
        - cbn [fst snd]. apply item_puts_spec; auto.
        - cbn [fst snd]. apply item_puts_spec; auto. }
      congruence.
    - intros H. unfold all_puts. apply NoDup_flat; [apply enumerate_NoDup| |].
      + intros [i t] Hin. apply enumerate_In in Hin. assert (Hti : In t lalr) by eauto using nth_error_In.
        unfold state_puts. cbn [fst snd]. apply NoDup_flat; [apply NoDup_keys, lalr_wf, Hti| |].
        * intros [[p d] las] He. unfold item_puts. cbn [fst snd]. destruct (dot_token g (p, d)) as [[x|]| |]; try constructor.
          -- destruct (is_term x); [|constructor]. destruct (get_token_idx g x); [|constructor].
             destruct (compute_goto g lalr lr0 m t x) as [[j|]| |]; try constructor; [intros []|constructor].
          -- rewrite map_map. cbn [fst]. apply (NoDup_map_inv snd). rewrite map_map. cbn [snd]. rewrite map_id.
             apply ssorted_NoDup. apply (proj2 (lalr_wf t Hti) _ _ He).
        * intros [[p d] las] [[p' d'] las'] [[i1 k] a] [[i1' k'] a'] He He' Hb Hb' E. cbn [fst snd] in *. injection E as <- <-.
          apply item_puts_spec in Hb as [_ Hb]; auto. apply item_puts_spec in Hb' as [_ Hb']; auto.
          pose proof (H i t p d a p' d' a' k Hin Hb Hb') as E. injection E as <- <-.
          destruct (lalr_wf t Hti) as [Hs _]. apply (In_map_get _ _ _ Hs) in He. apply (In_map_get _ _ _ Hs) in He'. congruence.
      + intros [i t] [i' t'] [[i1 k] a] [[i1' k'] a'] Hin Hin' Hb Hb' E. cbn [fst] in E. injection E as <- <-.
        apply enumerate_In in Hin, Hin'. apply state_puts_spec in Hb as [<- _]; eauto using nth_error_In.
        apply state_puts_spec in Hb' as [<- _]; eauto using nth_error_In. congruence.
  Qed.

  Lemma action_spec :
    (exists act, foldM (action_state g lalr lr0 m) (enumerate lalr) [] = Ok act /\ one_each /\
       forall i k a, tbl_get act i k = Some a <-> exists t p d, nth_error lalr i = Some t /\ put_by t p d k a) \/
    (foldM (action_state g lalr lr0 m) (enumerate lalr) [] = Panic PConflict /\ ~ one_each).
  Proof using W Hlr Hm.
    rewrite action_puts_all. destruct (puts_spec all_puts [] tbl_ok_nil) as [(act & E & _ & Hn & H)|[E Hn]].
    - intros ik _. apply tbl_get_nil.
    - left. exists act. split; auto. split; [apply all_puts_NoDup, Hn|]. intros i k a. rewrite H, tbl_get_nil.
      rewrite all_puts_spec. split; [intros [C|C]; [discriminate|exact C]|auto].
    - right. split; auto. rewrite <- all_puts_NoDup. exact Hn.
  Qed.

  (** ** The goto table *)
  Definition goto_put (t : goto_table) (e : nat * str * option nat) : res goto_table :=
    Ok (match snd e with Some j => tbl_insert t (fst (fst e)) (snd (fst e)) j | None => t end).

  Lemma goto_state_spec i t : In t lalr -> forall tb, tbl_ok tb -> exists tb', goto_state g lalr lr0 m tb (i, t) = Ok tb' /\
    tbl_ok tb' /\
    (forall i' A, i' <> i -> tbl_get tb' i' A = tbl_get tb i' A) /\
    ((forall A, tbl_get tb i A = None) -> forall A j, tbl_get tb' i A = Some j <-> In (SNon A) (g_tokens g) /\ target t (SNon A) j).
  Proof using W Hlr Hm.
    intros Ht tb Htb. unfold goto_state. cbn [fst snd].
    assert (G : forall l tb, tbl_ok tb -> exists tb', foldM (goto_entry g lalr lr0 m i t) l tb = Ok tb' /\ tbl_ok tb' /\
        (forall i' A, i' <> i -> tbl_get tb' i' A = tbl_get tb i' A) /\
        (forall A j, tbl_get tb' i A = Some j -> tbl_get tb i A = Some j \/ In A (map snd l) /\ target t (SNon A) j) /\
        (forall A j, target t (SNon A) j -> In A (map snd l) \/ tbl_get tb i A = Some j -> tbl_get tb' i A = Some j)).
    { clear tb Htb. induction l as [|nt l IH]; intros tb Htb; cbn [foldM].
      - exists tb. split; auto. split; auto. split; auto. split; [auto|]. intros A j _ [[]|H]; auto.
      - destruct (goto_entry_spec i t tb nt Ht) as (o & Ho & E). rewrite E. cbn [bind].
        set (tb1 := match o with Some j => tbl_insert tb i (snd nt) j | None => tb end).
        assert (H1 : tbl_ok tb1) by (unfold tb1; destruct o; [apply tbl_insert_ok|]; exact Htb).
        destruct (IH tb1 H1) as (tb' & E' & Hok & Ha & Hb & Hc). exists tb'. split; auto. split; auto. split; [|split].
        + intros i' A Hi. rewrite (Ha _ _ Hi). unfold tb1. destruct o; auto. rewrite tbl_get_other; [reflexivity|exact Htb|congruence].
        + intros A j H. apply Hb in H as [H|[H H']]; [|right; simpl; auto]. unfold tb1 in H.
          destruct o as [j0|]; auto. destruct (ord_dec A (snd nt)) as [->|Hne].
          * rewrite tbl_get_same in H by exact Htb. injection H as <-. right. split; [left; reflexivity|apply Ho; reflexivity].
          * rewrite tbl_get_other in H by (try exact Htb; congruence). auto.
        + intros A j Htg H. apply Hc; auto. simpl in H. unfold tb1.
          destruct (ord_dec A (snd nt)) as [->|Hne].
          * right. apply Ho in Htg. subst o. apply tbl_get_same, Htb.
          * destruct H as [[C|H]|H]; [congruence|auto|]. right. destruct o; auto. rewrite tbl_get_other; [exact H|exact Htb|congruence]. }
    destruct (G (non_terminals g) tb Htb) as (tb' & E & Hok & Ha & Hb & Hc). exists tb'. split; auto. split; auto. split; auto.
    assert (Hn : forall A, In A (map snd (non_terminals g)) <-> In (SNon A) (g_tokens g)).
    { intros A. rewrite <- non_terminals_In. rewrite in_map_iff. split.
      - intros ([i0 A'] & <- & H). eauto.
      - intros [i0 H]. exists (i0, A). auto. }
    intros Hnone A j. split.
    - intros H. apply Hb in H as [H|[H1 H2]]; [rewrite Hnone in H; discriminate|]. split; auto. apply Hn, H1.
    - intros [H1 H2]. apply Hc; auto. left. apply Hn, H1.
  Qed.

  Lemma goto_table_spec : exists got, foldM (goto_state g lalr lr0 m) (enumerate lalr) [] = Ok got /\
    forall i A j, tbl_get got i A = Some j <-> exists t, nth_error lalr i = Some t /\ In (SNon A) (g_tokens g) /\ target t (SNon A) j.
  Proof using W Hlr Hm.
    assert (G : forall l tb, NoDup (map fst l) -> (forall i t, In (i, t) l -> In t lalr) -> tbl_ok tb ->
        (forall i t A, In (i, t) l -> tbl_get tb i A = None) ->
        exists tb', foldM (goto_state g lalr lr0 m) l tb = Ok tb' /\ tbl_ok tb' /\
        forall i A j, tbl_get tb' i A = Some j <-> tbl_get tb i A = Some j \/
           exists t, In (i, t) l /\ In (SNon A) (g_tokens g) /\ target t (SNon A) j).
    { induction l as [|[i t] l IH]; intros tb Hnd Hl Htb Hnone; cbn [foldM].
      - exists tb. split; auto. split; auto. intros i A j. split; auto. intros [H|(t & [] & _)]; auto.
      - destruct (goto_state_spec i t (Hl i t (or_introl eq_refl)) tb Htb) as (tb1 & E & H1 & Ha & Hb). rewrite E. cbn [bind].
        inversion Hnd as [|x y Hni Hnd']; subst.
        assert (Hneq : forall i' t', In (i', t') l -> i' <> i).
        { intros i' t' H ->. apply Hni. apply (in_map fst) in H. exact H. }
        destruct (IH tb1 Hnd') as (tb' & E' & H2 & Hc); auto.
        + intros i' t' H. eapply Hl. right; exact H.
        + intros i' t' A H. rewrite Ha by eauto. eapply Hnone. right; exact H.
        + exists tb'. split; auto. split; auto. intros i' A j. rewrite Hc.
          specialize (Hb (fun A => Hnone i t A (or_introl eq_refl)) A j).
          destruct (Nat.eq_dec i' i) as [->|Hne].
          * rewrite Hb, (Hnone i t A (or_introl eq_refl)). split.
            -- intros [[H3 H4]|(t' & H3 & _)]; [right; exists t; simpl; auto|]. exfalso. exact (Hneq _ _ H3 eq_refl).
            -- intros [C|(t' & [Eq|H3] & H4)]; [discriminate|injection Eq as <-; auto|]. exfalso. exact (Hneq _ _ H3 eq_refl).
          * rewrite (Ha _ _ Hne). split.
            -- intros [H|(t' & H3 & H4)]; auto. right. exists t'. simpl. auto.
            -- intros [H|(t' & [Eq|H3] & H4)]; auto; [injection Eq as <- _; tauto|]. right. eauto. }
    destruct (G (enumerate lalr) []) as (got & E & _ & H).
    - unfold enumerate. assert (G' : forall (l : list item_set) n, map fst (combine (seq n (length l)) l) = seq n (length l)).
      { clear. induction l as [|x l IH]; intros n; simpl; auto. f_equal. apply IH. }
      rewrite G'. apply seq_NoDup.
    - intros i t Hin. apply enumerate_In in Hin. eauto using nth_error_In.
    - apply tbl_ok_nil.
    - intros i t A _. apply tbl_get_nil.
    - exists got. split; auto. intros i A j. rewrite H, tbl_get_nil. split.
      + intros [C|(t & Hin & H1)]; [discriminate|]. apply enumerate_In in Hin. eauto.
      + intros (t & Hin & H1). right. exists t. split; auto. apply enumerate_In, Hin.
  Qed.

  Lemma tables_spec :
    (exists act got, make_lalr_tables g lalr lr0 m = Ok (act, got) /\ one_each /\
       (forall i k a, tbl_get act i k = Some a <-> exists t p d, nth_error lalr i = Some t /\ put_by t p d k a) /\
       (forall i A j, tbl_get got i A = Some j <-> exists t, nth_error lalr i = Some t /\ In (SNon A) (g_tokens g) /\ target t (SNon A) j)) \/
    (make_lalr_tables g lalr lr0 m = Panic PConflict /\ ~ one_each).
  Proof using W Hlr Hm.
    unfold make_lalr_tables. destruct action_spec as [(act & E & H1 & H2)|[E H1]]; rewrite E; cbn [bind]; auto.
    destruct goto_table_spec as (got & E' & H3). rewrite E'. cbn [bind]. left. exists act, got. auto.
  Qed.
End Built.
