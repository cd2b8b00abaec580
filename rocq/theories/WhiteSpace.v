(** White space between tokens: proofs for PropsWhite.v. *)
From Verif Require Import Base Regex Nfa NfaProofs Overlap OverlapProofs OverlapLaminar Dfa DfaProofs
  Lex LexSpec LexLoop NfaLive LexNfa LexProofs.

(** No range written in a definition contains the blank or the newline. *)
Definition white_free (hs : list hir) : Prop :=
  forall r c, In r (flat_map written hs) -> white c -> ~ covers r c.

Definition no_pos (x : nat * nat * list N) : nat * list N := (snd (fst x), snd x).

Section White.
  Variable live : list N -> Prop.
  Variable acc : list N -> nat -> Prop.
  Hypothesis Hacc : forall w i, acc w i -> live w.
  Hypothesis Hlive : forall w, live w -> Forall (fun c => ~ white c) w.

  Lemma before_white u v a w b c : Forall (fun c => ~ white c) u -> white c -> u ++ v = a ++ (c :: w) ++ b -> exists x, a = u ++ x.
  Proof.
    intros Hu Hc E. destruct (prefix_cases _ _ _ _ E) as [(x & -> & Ex)|(x & -> & Ex)]; [eauto|].
    destruct x as [|d x]; [exists []; rewrite !app_nil_r; auto|]. simpl in Ex. injection Ex as <- Ex. exfalso.
    apply Forall_app in Hu as [_ Hu]. inversion Hu; subst; auto.
  Qed.
  Lemma white_dead a c b : white c -> ~ live (a ++ c :: b).
  Proof. intros Hc H. apply Hlive in H. apply Forall_app in H as [_ H]. inversion H; subst; auto. Qed.
  Lemma white_skippable c : white c -> skippable live c.
  Proof. intros Hc. split; auto. apply (white_dead [] c []). auto. Qed.
  Lemma white_no_match c v : white c -> no_match acc (c :: v).
  Proof.
    intros Hc u x i E Hu Ha. destruct u as [|d u]; [congruence|]. injection E as <- _.
    apply Hacc in Ha. exact (white_dead [] c u Hc Ha).
  Qed.

  Lemma tk_shift pos s ts r : Tokenize live acc pos s ts r -> forall pos', exists ts',
    Tokenize live acc pos' s ts' r /\ map no_pos ts' = map no_pos ts.
  Proof.
    induction 1 as [pos|pos u v a ts r Hu Hn H IH|pos u v a Hu Hn|pos c v ts r Hc Hn H IH|pos c v Hn Hc]; intros pos'.
    - exists []. split; auto. constructor.
    - destruct (IH (pos' + length u)) as (ts' & HT & E). exists ((pos', a, u) :: ts'). split; [apply TkTok; auto|]. simpl. rewrite E. auto.
    - exists [(pos', a, u)]. split; auto. apply TkLast; auto.
    - destruct (IH (S pos')) as (ts' & HT & E). exists ts'. split; auto. apply TkSkip; auto.
    - exists []. split; auto. apply TkStop; auto.
  Qed.

  Lemma tk_add w : forall pos s ts r, Forall white w -> Tokenize live acc pos s ts r -> forall pos', exists ts',
    Tokenize live acc pos' (w ++ s) ts' r /\ map no_pos ts' = map no_pos ts.
  Proof using Hacc Hlive.
    induction w as [|c w IH]; intros pos s ts r Hw H pos'; [eapply tk_shift; eauto|].
    inversion Hw; subst. destruct (IH pos s ts r ltac:(auto) H (S pos')) as (ts' & HT & E). exists ts'. split; auto.
    apply TkSkip; auto; [apply white_skippable; auto|apply white_no_match; auto].
  Qed.
  Lemma tk_drop w : forall pos s ts r, Forall white w -> Tokenize live acc pos (w ++ s) ts r -> exists pos', Tokenize live acc pos' s ts r.
  Proof using Hacc Hlive.
    induction w as [|c w IH]; intros pos s ts r Hw H; [eauto|]. inversion Hw; subst. simpl in H. remember (c :: w ++ s) as t eqn:Et.
    destruct H as [pos|pos u v a ts r Hu Hn H|pos u v a Hu Hn|pos c' v ts r Hc Hn H|pos c' v Hn Hc]; try discriminate.
    - exfalso. destruct Hu as (H1 & H2' & _). rewrite Et in *. eapply (white_no_match c (w ++ s)); eauto.
    - exfalso. destruct Hu as (H1 & H2' & _). rewrite Et in *. eapply (white_no_match c (w ++ s)); eauto.
    - injection Et as -> ->. eauto.
    - injection Et as -> ->. exfalso. apply Hc, white_skippable; auto.
  Qed.

  (** The amount of white space does not matter. *)
  Lemma tk_more pos s ts r : Tokenize live acc pos s ts r ->
    forall a c w c' w' b, s = a ++ (c :: w) ++ b -> Forall white (c :: w) -> Forall white (c' :: w') -> forall pos', exists ts' r',
    Tokenize live acc pos' (a ++ (c' :: w') ++ b) ts' r' /\ map no_pos ts' = map no_pos ts.
  Proof using Hacc Hlive.
    intros H. pose proof H as H0. revert H0.
    induction H as [pos|pos u v i ts r Hu Hn H IH|pos u v i Hu Hn|pos d v ts r Hd Hn H IH|pos d v Hn Hd];
      intros H0 a c w c' w' b Es Hw Hw' pos'.
    - destruct a; discriminate.
    - assert (Hc : white c) by (inversion Hw; auto). assert (Hc' : white c') by (inversion Hw'; auto).
      destruct (before_white u v a w b c) as (x & ->); auto; [apply Hlive; eapply Hacc; apply Hu|].
      rewrite <- app_assoc in Es. apply app_inv_head in Es. subst v.
      destruct (IH H x c w c' w' b eq_refl Hw Hw' (pos' + length u)) as (ts' & r' & HT & E).
      exists ((pos', i, u) :: ts'), r'. split; [|simpl; rewrite E; auto]. rewrite <- app_assoc. apply TkTok; auto.
      + destruct Hu as (H1 & H2 & H3). split; auto. split; auto. intros u' v' i' E' Ha.
        destruct (before_white u' v' (u ++ x) w' b c') as (y & Ey); auto; [apply Hlive; eapply Hacc; eauto|rewrite <- app_assoc; auto|].
        apply (H3 u' (y ++ (c :: w) ++ b) i'); auto. rewrite !app_assoc, <- Ey, <- !app_assoc. reflexivity.
      + rewrite app_assoc. simpl. apply white_dead; auto.
    - exfalso. rewrite Es in Hn. simpl in Hn. eapply white_dead; [|exact Hn]. inversion Hw; auto.
    - destruct a as [|e a].
      + clear IH. change ([] ++ (c :: w) ++ b) with ((c :: w) ++ b) in Es. rewrite Es in H0. apply tk_drop in H0 as (p & H0); auto.
        destruct (tk_add (c' :: w') _ _ _ _ Hw' H0 pos') as (ts' & HT & E). exists ts', r. split; auto.
      + injection Es as <- ->. destruct (IH H a c w c' w' b eq_refl Hw Hw' (S pos')) as (ts' & r' & HT & E).
        exists ts', r'. split; auto. apply TkSkip; auto. apply white_no_match. apply Hd.
    - destruct a as [|e a].
      + exfalso. injection Es as -> ->. apply Hd, white_skippable. inversion Hw; auto.
      + assert (Hc : white c) by (inversion Hw; auto). assert (Hc' : white c') by (inversion Hw'; auto).
        injection Es as <- ->. exists [], (d :: a ++ (c' :: w') ++ b). split; auto. apply TkStop; auto.
        intros u v i E Hu Ha. destruct (before_white u v (d :: a) w' b c') as (y & Ey); auto; [apply Hlive; eapply Hacc; eauto|].
        apply (Hn u (y ++ (c :: w) ++ b) i); auto.
        transitivity ((u ++ y) ++ (c :: w) ++ b); [rewrite <- Ey; reflexivity|rewrite <- app_assoc; reflexivity].
  Qed.

  (** White space can be added between two tokens, before the first and, if all is read, after the last. *)
  Lemma tk_insert w : Forall white w -> forall pos s ts r, Tokenize live acc pos s ts r ->
    forall a b ts1 ts2, s = a ++ b -> ts = ts1 ++ ts2 ->
    (forall p i u, In (p, i, u) ts1 -> p + length u <= pos + length a) ->
    (forall p i u, In (p, i, u) ts2 -> pos + length a <= p) ->
    ts2 <> [] \/ r = [] -> forall pos', exists ts' r',
    Tokenize live acc pos' (a ++ w ++ b) ts' r' /\ map no_pos ts' = map no_pos ts.
  Proof using Hacc Hlive.
    intros Hw pos s ts r H. pose proof H as H0. revert H0.
    induction H as [pos|pos u v i ts r Hu Hn H IH|pos u v i Hu Hn|pos d v ts r Hd Hn H IH|pos d v Hn Hd];
      intros H0 a b ts1 ts2 Es Et H1 H2 Hr pos'.
    - symmetry in Es. apply app_eq_nil in Es as [-> ->].
      destruct (tk_add w _ _ _ _ Hw H0 pos') as (ts' & HT & E). exists ts', []. auto.
    - destruct ts1 as [|x ts1]; simpl in Et.
      { subst ts2. specialize (H2 pos i u (or_introl eq_refl)). destruct a; [|simpl in H2; lia]. simpl in Es. subst b.
        destruct (tk_add w _ _ _ _ Hw H0 pos') as (ts' & HT & E). exists ts', r. auto. }
      injection Et as <- ->. pose proof (H1 pos i u (or_introl eq_refl)) as Hlen.
      destruct (prefix_cases _ _ _ _ Es) as [(x & -> & ->)|(x & -> & ->)].
      2:{ rewrite app_length in Hlen. destruct x; [|simpl in Hlen; lia]. rewrite app_nil_r in *. simpl in *. clear Es.
          destruct (IH H [] v ts1 ts2 eq_refl eq_refl) with (pos' := pos' + length a) as (ts' & r' & HT & E); auto.
          { intros p j y Hy. simpl. specialize (H1 p j y (or_intror Hy)). lia. }
          { intros p j y Hy. simpl. specialize (H2 p j y Hy). lia. }
          simpl in HT. exists ((pos', i, a) :: ts'), r'. split; [|simpl; rewrite E; auto].
          destruct w as [|c w]; [apply TkTok; auto|]. inversion Hw; subst. apply TkTok; auto.
          - destruct Hu as (U1 & U2 & U3). split; auto. split; auto. intros u' v' i' E' Ha.
            destruct (before_white u' v' a w v c) as (y & Ey); auto; [apply Hlive; eapply Hacc; eauto|].
            apply (U3 u' (y ++ v) i'); auto. rewrite Ey, <- app_assoc. reflexivity.
          - simpl. apply white_dead; auto. }
      destruct (IH H x b ts1 ts2 eq_refl eq_refl) with (pos' := pos' + length u) as (ts' & r' & HT & E); auto.
      { intros p j y Hy. specialize (H1 p j y (or_intror Hy)). rewrite app_length in H1. lia. }
      { intros p j y Hy. specialize (H2 p j y Hy). rewrite app_length in H2. lia. }
      exists ((pos', i, u) :: ts'), r'. split; [|simpl; rewrite E; auto]. rewrite <- app_assoc.
      destruct w as [|c w]; [apply TkTok; auto|]. inversion Hw; subst. apply TkTok; auto.
      + destruct Hu as (U1 & U2 & U3). split; auto. split; auto. intros u' v' i' E' Ha.
        destruct (before_white u' v' (u ++ x) w b c) as (y & Ey); auto; [apply Hlive; eapply Hacc; eauto|rewrite <- app_assoc; auto|].
        apply (U3 u' (y ++ b) i'); auto. rewrite !app_assoc, <- Ey, <- !app_assoc. reflexivity.
      + rewrite app_assoc. simpl. apply white_dead; auto.
    - destruct ts1 as [|x ts1]; simpl in Et.
      { subst ts2. specialize (H2 pos i u (or_introl eq_refl)). destruct a; [|simpl in H2; lia]. simpl in Es. subst b.
        destruct (tk_add w _ _ _ _ Hw H0 pos') as (ts' & HT & E). exists ts', v. auto. }
      injection Et as <- Et. symmetry in Et. apply app_eq_nil in Et as [-> ->]. destruct Hr as [Hr|Hr]; [congruence|]. subst v.
      pose proof (H1 pos i u (or_introl eq_refl)) as Hlen. rewrite app_nil_r in *.
      assert (b = [] /\ a = u) as [-> ->].
      { destruct b as [|c b]; [rewrite app_nil_r in Es; auto|]. apply (f_equal (@length N)) in Es. rewrite app_length in Es. simpl in Es. lia. }
      destruct w as [|c w]; [exists [(pos', i, u)], []; split; auto; apply TkLast; rewrite ?app_nil_r; auto|].
      destruct (tk_add (c :: w) (pos' + length u) [] [] [] Hw (TkEnd _ _ _) (pos' + length u)) as (ts' & HT & E).
      destruct ts' as [|? ?]; [|discriminate]. exists [(pos', i, u)], []. split; auto. inversion Hw; subst. apply TkTok; auto.
      + destruct Hu as (U1 & U2 & U3). split; auto. split; auto. intros u' v' i' E' Ha.
        destruct (before_white u' v' u w [] c) as (y & Ey); auto; [apply Hlive; eapply Hacc; eauto|].
        apply (U3 u' y i'); auto.
      + simpl. apply white_dead; auto.
    - destruct a as [|e a].
      + simpl in Es. subst b. destruct (tk_add w _ _ _ _ Hw H0 pos') as (ts' & HT & E). exists ts', r. auto.
      + injection Es as <- ->. destruct (IH H a b ts1 ts2 eq_refl Et) with (pos' := S pos') as (ts' & r' & HT & E); auto.
        { intros p j y Hy. specialize (H1 p j y Hy). simpl in H1. lia. }
        { intros p j y Hy. specialize (H2 p j y Hy). simpl in H2. lia. }
        exists ts', r'. split; auto. apply TkSkip; auto. apply white_no_match. apply Hd.
    - exfalso. symmetry in Et. apply app_eq_nil in Et as [-> ->]. destruct Hr; [congruence|discriminate].
  Qed.

  (** What follows white space is read on its own, and not at all if what comes before it is not read to the end. *)
  Lemma tk_concat pos s ts r : Tokenize live acc pos s ts r -> forall a c, s = a ++ [c] -> white c -> forall b pos',
    (r = [] -> forall p2 ts2 r2, Tokenize live acc p2 b ts2 r2 ->
       exists ts', Tokenize live acc pos' (a ++ c :: b) ts' r2 /\ map no_pos ts' = map no_pos (ts ++ ts2)) /\
    (r <> [] -> exists ts' r', Tokenize live acc pos' (a ++ c :: b) ts' r' /\ r' <> [] /\ map no_pos ts' = map no_pos ts).
  Proof using Hacc Hlive.
    induction 1 as [pos|pos u v i ts r Hu Hn H IH|pos u v i Hu Hn|pos d v ts r Hd Hn H IH|pos d v Hn Hd]; intros a c Es Hc b pos'.
    - destruct a; discriminate.
    - destruct (before_white u v a [] [] c) as (x & ->); auto; [apply Hlive; eapply Hacc; apply Hu|].
      rewrite <- app_assoc in Es. apply app_inv_head in Es. subst v.
      assert (Htok : forall ts' r', Tokenize live acc (pos' + length u) (x ++ c :: b) ts' r' ->
        Tokenize live acc pos' ((u ++ x) ++ c :: b) ((pos', i, u) :: ts') r').
      { intros ts' r' HT. rewrite <- app_assoc. apply TkTok; auto.
        - destruct Hu as (H1 & H2 & H3). split; auto. split; auto. intros u' v' i' E' Ha.
          destruct (before_white u' v' (u ++ x) [] b c) as (y & Ey); auto; [apply Hlive; eapply Hacc; eauto|rewrite <- app_assoc; auto|].
          apply (H3 u' (y ++ [c]) i'); auto. rewrite !app_assoc, <- Ey. reflexivity.
        - rewrite app_assoc. apply white_dead; auto. }
      destruct (IH x c eq_refl Hc b (pos' + length u)) as [I1 I2]. split.
      + intros Hr p2 ts2 r2 H2. destruct (I1 Hr p2 ts2 r2 H2) as (ts' & HT & E). exists ((pos', i, u) :: ts'). split; auto.
        simpl. rewrite E. reflexivity.
      + intros Hr. destruct (I2 Hr) as (ts' & r' & HT & Hr' & E). exists ((pos', i, u) :: ts'), r'. split; auto. split; auto. simpl. rewrite E. auto.
    - exfalso. rewrite Es in Hn. eapply white_dead; [|exact Hn]. auto.
    - destruct a as [|e a].
      + injection Es as -> ->. inversion H; subst.
        * split; [|congruence]. intros _ p2 ts2 r2 H2. destruct (tk_add [c] p2 b ts2 r2 ltac:(auto) H2 pos') as (ts' & HT & E). eauto.
        * match goal with T : longest _ ?u _ _ |- _ => destruct T as (T & _); destruct u; [congruence|discriminate] end.
        * match goal with T : longest _ ?u _ _ |- _ => destruct T as (T & _); destruct u; [congruence|discriminate] end.
      + injection Es as <- ->. destruct (IH a c eq_refl Hc b (S pos')) as [I1 I2]. split.
        * intros Hr p2 ts2 r2 H2. destruct (I1 Hr p2 ts2 r2 H2) as (ts' & HT & E). exists ts'. split; auto. simpl. apply TkSkip; auto.
          apply white_no_match. apply Hd.
        * intros Hr. destruct (I2 Hr) as (ts' & r' & HT & Hr' & E). exists ts', r'. split; auto. simpl. apply TkSkip; auto.
          apply white_no_match. apply Hd.
    - split; [discriminate|]. intros _. destruct a as [|e a].
      + exfalso. injection Es as -> ->. apply Hd, white_skippable. auto.
      + injection Es as <- ->. exists [], (d :: a ++ c :: b). split; [|split; auto; discriminate]. apply TkStop; auto.
        intros u v i E Hu Ha. destruct (before_white u v (d :: a) [] b c) as (y & Ey); auto; [apply Hlive; eapply Hacc; eauto|].
        apply (Hn u (y ++ [c]) i); auto.
        transitivity ((u ++ y) ++ [c]); [rewrite <- Ey; reflexivity|rewrite <- app_assoc; reflexivity].
  Qed.
End White.

(** Texts the lexer can read have no white space. *)
Lemma live_no_white tokens L : from_tokens tokens = Ok L -> white_free (map snd tokens) ->
  forall w, liveD L w -> Forall (fun c => ~ white c) w.
Proof.
  intros HL Hwf. destruct (lexer_parts tokens L HL) as
    (ns & Nf & al & ds & HF & ENf & Hw & Hst & Hno & Ed & Eal & Hok & _ & _ & Hacc & Hlang & Hlab & Hlv).
  assert (Hedge : forall e c, In e (d_edges (lx_dfa L)) -> matches (de_label e) c = true -> ~ white c).
  { intros e c Hin Hm Hc. destruct (dfa_ok_edge _ _ _ _ _ Hok Hin) as (q & es & _ & Hrow & Hin').
    destruct (row_In _ _ _ _ _ _ _ Hrow Hin') as (u & Hl & _).
    destruct (remove_overlap_covered (set_of_list (edge_labels (edges Nf)))) as (al' & Ea & _ & Hcov).
    rewrite Eal in Ea. injection Ea as <-.
    destruct (proj1 (Hcov c)) as (r & Hr & Hrc).
    { exists (de_label e). split; auto. apply matches_inr in Hm. exact Hm. }
    rewrite set_of_list_In in Hr. apply Hlab in Hr. exact (Hwf r c Hr Hc Hrc). }
  intros w (t & Ht). apply (follows_d_run _ _ _ _ _ _ Hok) in Ht. clear - Ht Hedge. revert Ht. generalize 0.
  induction w as [|c w IH]; intros s Hf; constructor.
  - inversion Hf as [|? ? ? ? l1 e l2 El Hfr Hm Hmin Hr]; subst. apply (Hedge e); auto. rewrite El. apply in_or_app; simpl; auto.
  - inversion Hf as [|? ? ? ? l1 e l2 El Hfr Hm Hmin Hr]; subst. eauto.
Qed.
