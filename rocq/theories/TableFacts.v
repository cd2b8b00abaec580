(** What [make_tables] returns, in terms of the LR(1) and LALR automata of the specification. *)
From Verif Require Import Base Grammar GrammarSpec GrammarProofs First Item ItemSpec ItemProofs ItemPlain Table
  MergeProofs TableSpec TableProofs.

(** The pieces of successfully built tables. *)
Record built (hash : list item -> N) (g : grammar) (t : tables) (lr0 : list item_set) (m : list (nat * nat)) : Prop := {
  b_items : items g = Ok lr0;
  b_merge : merge_cores hash lr0 = Ok (t_states t, m);
  b_merged : merged lr0 (t_states t) m;
  b_one : one_each g lr0 (t_states t);
  b_action : forall i k a, tbl_get (t_action t) i k = Some a <->
    exists s p d, nth_error (t_states t) i = Some s /\ put_by g lr0 (t_states t) s p d k a;
  b_goto : forall i A j, tbl_get (t_goto t) i A = Some j <->
    exists s, nth_error (t_states t) i = Some s /\ In (SNon A) (g_tokens g) /\ target g lr0 (t_states t) s (SNon A) j }.

Lemma make_tables_built hash g start t : wf_grammar g start -> make_tables hash g = Ok t ->
  exists lr0 m, built hash g t lr0 m.
Proof.
  intros W H. unfold make_tables in H. destruct (items g) as [lr0| |] eqn:El; cbn [bind] in H; try discriminate.
  destruct (merge_cores_spec hash lr0 (lr_wf g start W lr0 El)) as [(lalr & m & E & Hm & _)|[[p E] _]]; rewrite E in H; cbn [bind] in H; [|discriminate].
  destruct (tables_spec g start W lr0 El lalr m Hm) as [(act & got & E' & H1 & H2 & H3)|[E' _]]; rewrite E' in H; cbn [bind] in H; [|discriminate].
  injection H as <-. exists lr0, m. constructor; auto.
Qed.

Lemma make_tables_ok_iff hash g start : wf_grammar g start ->
  (exists t, make_tables hash g = Ok t) <->
  exists lr0 lalr m, items g = Ok lr0 /\ merge_cores hash lr0 = Ok (lalr, m) /\ one_each g lr0 lalr.
Proof.
  intros W. split.
  - intros [t H]. destruct (make_tables_built _ _ _ _ W H) as (lr0 & m & B). exists lr0, (t_states t), m. split; [apply B|]. split; apply B.
  - intros (lr0 & lalr & m & El & E & H). unfold make_tables. rewrite El. cbn [bind]. rewrite E. cbn [bind].
    destruct (merge_cores_spec hash lr0 (lr_wf g start W lr0 El)) as [(lalr' & m' & E1 & Hm & _)|[[p E1] _]]; [|congruence].
    assert (Eq : (lalr', m') = (lalr, m)) by congruence. injection Eq as -> ->.
    destruct (tables_spec g start W lr0 El lalr m Hm) as [(act & got & E' & _)|[_ C]]; [|tauto].
    rewrite E'. cbn [bind]. eauto.
Qed.

Lemma set_eq_sym I J : set_eq I J -> set_eq J I.
Proof. intros H p d k. symmetry. apply H. Qed.
Lemma same_core_eq I I' J : set_eq I I' -> same_core I J <-> same_core I' J.
Proof.
  intros H. assert (G : forall p d, (exists k, I p d k) <-> (exists k, I' p d k)).
  { intros p d. split; intros [k Hk]; exists k; apply H, Hk. }
  split; intros HC p d; rewrite <- (HC p d); [symmetry|]; apply G.
Qed.
Lemma same_core_eq_r I J J' : set_eq J J' -> same_core I J <-> same_core I J'.
Proof.
  intros H. assert (G : forall p d, (exists k, J p d k) <-> (exists k, J' p d k)).
  { intros p d. split; intros [k Hk]; exists k; apply H, Hk. }
  split; intros HC p d; rewrite (HC p d); [|symmetry]; apply G.
Qed.
Lemma same_core_sets s t I J : wf_set s -> wf_set t -> represents s I -> represents t J ->
  same_core I J <-> core s = core t.
Proof.
  intros Hs Ht Hr Hr'. rewrite (core_ext s t Hs Ht). unfold same_core.
  assert (G : forall s I, represents s I -> forall p d, (exists k, has s p d k) <-> (exists k, I p d k)).
  { intros s0 I0 H p d. split; intros [k Hk]; exists k; apply H, Hk. }
  split; intros H p d; specialize (H p d); rewrite !(G _ _ Hr), !(G _ _ Hr') in *; exact H.
Qed.

Section Std.
  Variables (g : grammar) (start : str).
  Hypothesis W : wf_grammar g start.
  Hypothesis He : eps_free g.
  Variables (lr0 lalr : list item_set) (m : list (nat * nat)).
  Hypothesis Hlr : items g = Ok lr0.
  Hypothesis Hm : merged lr0 lalr m.

  Let F := F_std g.

  Lemma lr_std_in s : In s lr0 -> wf_set s /\ exists I, lr_state g F I /\ represents s I.
  Proof using W He Hlr.
    intros H. destruct (lr_final g start W lr0 Hlr) as (_ & _ & Hs & _ & HG).
    destruct (Hs s H) as (Hw & I & HI & Hr). split; auto.
    destruct (lr_code_std g start W He HG I HI) as (J & HJ & E). exists J. split; auto.
    intros p d k. rewrite (Hr p d k). apply E.
  Qed.
  Lemma lr_std_all I : lr_state g F I -> exists s, In s lr0 /\ represents s I.
  Proof using W He Hlr.
    intros HI. destruct (lr_final g start W lr0 Hlr) as (_ & _ & _ & Ha & HG).
    destruct (lr_std_code g start W He HG I HI) as (J & HJ & E). destruct (Ha J HJ) as (s & Hs & Hr).
    exists s. split; auto. intros p d k. rewrite (Hr p d k). symmetry. apply E.
  Qed.

  (** The LALR state of an LR(1) state. *)
  Lemma lalr_of_spec i j s t I : map_get i m = Some j -> nth_error lr0 i = Some s -> nth_error lalr j = Some t ->
    represents s I -> set_eq (has t) (lalr_of g F I).
  Proof using W He Hlr Hm.
    intros Hi Hs Ht Hr p d k. rewrite (mg_has _ _ _ Hm j t Ht). split.
    - intros (i' & s' & Hi' & Hs' & H). destruct (lr_std_in s' (nth_error_In _ _ Hs')) as (Hw' & I' & HI' & Hr').
      destruct (lr_std_in s (nth_error_In _ _ Hs)) as (Hw & _).
      exists I'. split; auto. split; [|apply Hr', H].
      apply (same_core_sets s s' I I' Hw Hw' Hr Hr'). apply (mg_same _ _ _ Hm i i' s s' j j); auto.
    - intros (I' & HI' & Hc & H). destruct (lr_std_all I' HI') as (s' & Hin & Hr').
      destruct (lr_std_in s' Hin) as (Hw' & _). destruct (lr_std_in s (nth_error_In _ _ Hs)) as (Hw & _).
      apply (same_core_sets s s' I I' Hw Hw' Hr Hr') in Hc. apply In_nth_error in Hin as [i' Hi'].
      destruct (mg_total _ _ _ Hm i' s' Hi') as (j' & t' & Hj' & Ht' & _).
      assert (j = j') as <- by (apply (mg_same _ _ _ Hm i i' s s' j j'); auto).
      exists i', s'. split; auto. split; auto. apply Hr', H.
  Qed.

  Lemma lalr_std_in j t : nth_error lalr j = Some t -> exists I, lr_state g F I /\ set_eq (has t) (lalr_of g F I) /\ same_core (has t) I.
  Proof using W He Hlr Hm.
    intros Ht. destruct (lalr_some lr0 lalr m Hm j t Ht) as (i & s & Hi & Hs & Ec & _).
    destruct (lr_std_in s (nth_error_In _ _ Hs)) as (Hw & I & HI & Hr). exists I. split; auto. split.
    - eapply lalr_of_spec; eauto.
    - apply (same_core_sets t s (has t) I); auto.
      + eapply (lalr_wf lr0 lalr m Hm). eauto using nth_error_In.
      + intros p d k. reflexivity.
  Qed.
  Lemma lalr_std_all I : lr_state g F I -> exists j t, nth_error lalr j = Some t /\ set_eq (has t) (lalr_of g F I) /\ same_core (has t) I.
  Proof using W He Hlr Hm.
    intros HI. destruct (lr_std_all I HI) as (s & Hin & Hr). destruct (lr_std_in s Hin) as (Hw & _).
    apply In_nth_error in Hin as [i Hi]. destruct (mg_total _ _ _ Hm i s Hi) as (j & t & Hj & Ht & Ec).
    exists j, t. split; auto. split; [eapply lalr_of_spec; eauto|].
    apply (same_core_sets t s (has t) I); auto.
    - eapply (lalr_wf lr0 lalr m Hm). eauto using nth_error_In.
    - intros p d k. reflexivity.
  Qed.

  Lemma lalr_goto_std t x : In t lalr -> exists u, goto g t x = Ok u /\ wf_set u /\ represents u (clo g F (move g (has t) x)).
  Proof using W He Hlr Hm.
    intros Ht. destruct (lalr_goto g start W lr0 Hlr lalr m Hm t x Ht) as (u & E & Hw & Hr). exists u. split; auto. split; auto.
    intros p d k. rewrite (Hr p d k). apply (clo_std g start W He). eapply lalr_clo_ready; eauto.
  Qed.

  Lemma move_eq I J x : set_eq I J -> set_eq (move g I x) (move g J x).
  Proof. intros H. exact (move_ext g I J x H). Qed.
  Lemma clo_eq K K' : set_eq K K' -> set_eq (clo g F K) (clo g F K').
  Proof. intros H. exact (clo_ext g F K K' H). Qed.
  Lemma set_eq_trans I J K : set_eq I J -> set_eq J K -> set_eq I K.
  Proof. intros H1 H2 p d k. rewrite (H1 p d k). apply H2. Qed.

  Lemma found_eq I J x : set_eq I J -> found g F I x <-> found g F J x.
  Proof.
    intros H. pose proof (clo_eq _ _ (move_eq _ _ x H)) as Hc.
    split; intros (I0 & HI & [H1|H1]); exists I0; (split; [exact HI|]).
    - left. exact (set_eq_trans _ _ _ (set_eq_sym _ _ Hc) H1).
    - right. exact (set_eq_trans _ _ _ (set_eq_sym _ _ Hc) H1).
    - left. exact (set_eq_trans _ _ _ Hc H1).
    - right. exact (set_eq_trans _ _ _ Hc H1).
  Qed.

  Lemma target_found t x : In t lalr -> (exists j, target g lr0 lalr t x j) <-> found g F (has t) x.
  Proof using W He Hlr Hm.
    intros Ht. destruct (lalr_goto_std t x Ht) as (u & E & Hw & Hr). split.
    - intros (j & u' & t' & E' & _ & _ & _ & H). rewrite E in E'. injection E' as <-. destruct H as [H|H].
      + destruct (lr_std_in u H) as (_ & I & HI & Hr'). exists I. split; auto. left. intros p d k. rewrite <- (Hr p d k). apply Hr'.
      + apply In_nth_error in H as [j' Hj']. destruct (lalr_std_in j' u Hj') as (I & HI & H' & _).
        exists I. split; auto. right. intros p d k. rewrite <- (Hr p d k). apply H'.
    - intros (I & HI & H).
      assert (Hu : In u lr0 \/ In u lalr).
      { destruct H as [H|H].
        - left. destruct (lr_std_all I HI) as (s & Hs & Hrs). destruct (lr_std_in s Hs) as (Hws & _).
          assert (u = s) as ->; auto. apply wf_set_ext; auto. intros p d k. rewrite (Hr p d k), (Hrs p d k). apply H.
        - right. destruct (lalr_std_all I HI) as (j & t' & Hj & Ht' & _).
          assert (u = t') as ->; [|eauto using nth_error_In]. apply wf_set_ext; auto.
          + eapply (lalr_wf lr0 lalr m Hm); eauto using nth_error_In.
          + intros p d k. rewrite (Hr p d k), (Ht' p d k). apply H. }
      destruct Hu as [Hu|Hu].
      + destruct (lr_to_lalr g start W lr0 Hlr lalr m Hm u Hu) as (j & t' & H1 & H2 & H3 & _). exists j, u, t'. auto 10.
      + apply In_nth_error in Hu as [j Hj]. exists j, u, u. repeat split; auto. right. eauto using nth_error_In.
  Qed.

  Lemma target_core t x j : In t lalr -> target g lr0 lalr t x j -> exists t', nth_error lalr j = Some t' /\
    same_core (clo g F (move g (has t) x)) (has t') /\ forall p d k, clo g F (move g (has t) x) p d k -> has t' p d k.
  Proof using W He Hlr Hm.
    intros Ht (u & t' & E & Hj & Hc & Hi & _). destruct (lalr_goto_std t x Ht) as (u' & E' & Hw & Hr).
    rewrite E in E'. injection E' as <-. exists t'. split; auto. split.
    - apply (same_core_sets u t' _ (has t')); auto.
      + eapply (lalr_wf lr0 lalr m Hm); eauto using nth_error_In.
      + intros p d k. reflexivity.
    - intros p d k H. apply Hi, Hr, H.
  Qed.

  Lemma put_wants t p d k : In t lalr -> (exists a, put_by g lr0 lalr t p d k a) <-> wants g F (has t) p d k.
  Proof using W He Hlr Hm.
    intros Ht. unfold put_by, wants. split.
    - intros (a & [(H1 & H2 & _)|(x & j & H1 & H2 & H3 & H4 & H5 & _)]); auto.
      right. exists x. repeat (split; [assumption|]). apply target_found; eauto.
    - intros [[H1 H2]|(x & H1 & H2 & H3 & H4 & H5)].
      + eexists. left. split; auto.
      + apply (target_found t x Ht) in H5 as [j Hj]. exists (Shift j). right. exists x, j. auto 10.
  Qed.

  Lemma wants_eq I J p d k : set_eq I J -> wants g F I p d k <-> wants g F J p d k.
  Proof.
    intros H. unfold wants. assert (G : (exists k', I p d k') <-> (exists k', J p d k')).
    { split; intros [k' Hk']; exists k'; apply H, Hk'. }
    split; (intros [[H1 H2]|(x & H1 & H2 & H3 & H4 & H5)]; [left; split; auto; apply H, H2|right; exists x; repeat (split; [tauto|]); apply (found_eq _ _ x H), H5]).
  Qed.

  Lemma one_each_std : one_each g lr0 lalr <->
    forall I, lr_state g F I -> forall p d p' d' k, wants g F (lalr_of g F I) p d k -> wants g F (lalr_of g F I) p' d' k -> (p, d) = (p', d').
  Proof using W He Hlr Hm.
    split.
    - intros H I HI p d p' d' k H1 H2. destruct (lalr_std_all I HI) as (j & t & Hj & Ht & _).
      apply (wants_eq _ _ _ _ _ Ht) in H1, H2. apply put_wants in H1 as [a1 H1]; eauto using nth_error_In.
      apply put_wants in H2 as [a2 H2]; eauto using nth_error_In.
    - intros H i t p d a p' d' a' k Hi H1 H2. destruct (lalr_std_in i t Hi) as (I & HI & Ht & _).
      assert (Hin : In t lalr) by eauto using nth_error_In.
      apply (H I HI p d p' d' k); apply (wants_eq _ _ _ _ _ Ht); apply put_wants; eauto.
  Qed.
End Std.

(** Deciding from the computed LR(1) states that no LALR state has a conflict. *)
Definition entry_clash (g : grammar) (e e' : item * list nat) : bool :=
  negb (eqb (fst e) (fst e')) &&
  match dot_token g (fst e) with
  | Ok None =>
      match dot_token g (fst e') with
      | Ok None => existsb (fun k => set_mem k (snd e')) (snd e)
      | Ok (Some x) => is_term x && match get_token_idx g x with Some k => set_mem k (snd e) | None => true end
      | _ => true
      end
  | Ok (Some _) => false
  | _ => true
  end.
Definition conflict_free_b (g : grammar) (lr0 : list item_set) : bool :=
  forallb (fun s => forallb (fun s' => negb (eqb (core s) (core s')) ||
     forallb (fun e => forallb (fun e' => negb (entry_clash g e e')) s') s) lr0) lr0.

Lemma conflict_free_b_ok g start lr0 : wf_grammar g start -> eps_free g -> items g = Ok lr0 ->
  conflict_free_b g lr0 = true -> forall I, lr_state g (F_std g) I -> ~ conflict g (lalr_of g (F_std g) I).
Proof.
  intros W He Hlr Hb I HI (p & d & p' & d' & k & Hne & Hc & (I1 & HI1 & Hc1 & H1) & H2).
  assert (G : exists I2 k', lr_state g (F_std g) I2 /\ same_core I I2 /\ I2 p' d' k' /\
            ((complete g p' d' /\ k' = k) \/ exists x, sym_at g p' d' x /\ terminal x /\ tok g k x)).
  { destruct H2 as [(Hc' & I2 & HI2 & Hc2 & H2)|(x & k' & Hx & Ht & Htk & I2 & HI2 & Hc2 & H2)].
    - exists I2, k. split; auto.
    - exists I2, k'. split; auto. split; auto. split; auto. right. eauto. }
  clear H2. destruct G as (I2 & k' & HI2 & Hc2 & H2 & Hcase).
  destruct (lr_std_all g start W He lr0 Hlr I1 HI1) as (s1 & Hs1 & Hr1).
  destruct (lr_std_all g start W He lr0 Hlr I2 HI2) as (s2 & Hs2 & Hr2).
  destruct (lr_std_in g start W He lr0 Hlr s1 Hs1) as (Hw1 & _). destruct (lr_std_in g start W He lr0 Hlr s2 Hs2) as (Hw2 & _).
  assert (Ec : core s1 = core s2).
  { apply (same_core_sets s1 s2 I1 I2); auto. intros q e. rewrite <- (Hc1 q e). apply Hc2. }
  apply Hr1 in H1 as (las1 & Hin1 & Hk1). apply Hr2 in H2 as (las2 & Hin2 & Hk2).
  unfold conflict_free_b in Hb. rewrite forallb_forall in Hb. specialize (Hb s1 Hs1). rewrite forallb_forall in Hb. specialize (Hb s2 Hs2).
  rewrite Ec, eqb_refl in Hb. simpl in Hb. rewrite forallb_forall in Hb. specialize (Hb _ Hin1).
  rewrite forallb_forall in Hb. specialize (Hb _ Hin2). apply negb_true_iff in Hb.
  assert (Hn : eqb (p, d) (p', d') = false) by (apply eqb_neq; exact Hne).
  unfold entry_clash in Hb. cbn [fst snd] in Hb. rewrite Hn in Hb. cbn [negb andb] in Hb.
  destruct Hc as (pr & Hp & Ed). rewrite (dot_token_some g p d pr Hp) in Hb.
  rewrite (proj2 (nth_error_None (p_syms pr) d)) in Hb by lia.
  assert (Hm1 : set_mem k las1 = true) by (apply set_mem_In; exact Hk1).
  destruct Hcase as [((pr' & Hp' & Ed') & ->)|(x & (pr' & Hp' & Hx) & Ht & Htk)].
  - rewrite (dot_token_some g p' d' pr' Hp') in Hb. rewrite (proj2 (nth_error_None (p_syms pr') d')) in Hb by lia.
    assert (existsb (fun k => set_mem k las2) las1 = true); [|congruence].
    apply existsb_exists. exists k. split; auto. apply set_mem_In; exact Hk2.
  - rewrite (dot_token_some g p' d' pr' Hp') in Hb. rewrite Hx in Hb.
    rewrite (proj2 (is_term_terminal x) Ht) in Hb. apply tok_idx in Htk. rewrite Htk in Hb. simpl in Hb. congruence.
Qed.

(** ** Independence of the hash function *)
Lemma make_tables_indep h1 h2 g lr0 : items g = Ok lr0 -> collision_free h1 lr0 -> collision_free h2 lr0 ->
  make_tables h1 g = make_tables h2 g.
Proof. intros E H1 H2. unfold make_tables. rewrite E. cbn [bind]. rewrite (merge_cores_indep h1 h2 lr0 H1 H2). reflexivity. Qed.

Lemma make_tables_free hash g start t : wf_grammar g start -> make_tables hash g = Ok t ->
  exists lr0, items g = Ok lr0 /\ collision_free hash lr0.
Proof.
  intros W H. unfold make_tables in H. destruct (items g) as [lr0| |] eqn:El; cbn [bind] in H; try discriminate.
  exists lr0. split; auto.
  destruct (merge_cores_spec hash lr0 (lr_wf g start W lr0 El)) as [(lalr & m & E & Hm & Hc)|[[p E] _]]; auto.
  rewrite E in H. discriminate.
Qed.
Lemma make_tables_any h1 h2 g start t : wf_grammar g start -> (forall l, collision_free h2 l) ->
  make_tables h1 g = Ok t -> make_tables h2 g = Ok t.
Proof.
  intros W Hf H. destruct (make_tables_free _ _ _ _ W H) as (lr0 & El & Hc).
  rewrite <- H. eapply make_tables_indep; eauto.
Qed.
