(** Which states of the DFA are of use: every state is entered by an edge from a state built before it. *)
From Verif Require Import Base Regex Nfa NfaProofs Overlap OverlapProofs OverlapLaminar Dfa DfaProofs
  Lex LexSpec LexLoop NfaLive LexNfa LexProofs.

(** Every state but the first has an edge into it from a state with a smaller number. *)
Definition entered (es : list dedge) (m : nat) : Prop :=
  forall j, 0 < j < m -> exists e, In e es /\ de_to e = j /\ de_from e < j.

Lemma build_label_entered n k st p st' : k < length (b_states st) -> entered (b_edges st) (length (b_states st)) ->
  build_label n k st p = Ok st' ->
  k < length (b_states st') /\ entered (b_edges st') (length (b_states st')).
Proof.
  intros Hk Hen E. unfold build_label in E.
  destruct (nth_error (b_states st) k) as [t|]; [|discriminate].
  apply bind_ok in E as (m & _ & E). apply bind_ok in E as (u & _ & E).
  destruct u as [|x u]; [injection E as <-; auto|].
  destruct (find_index (eqb (x :: u)) (b_states st)) as [i|].
  - destruct (nth_error (b_first st) k) as [fe|]; [|discriminate]. injection E as <-. simpl. split; auto.
    intros j Hj. destruct (Hen j Hj) as (e & H1 & H2). exists e. split; auto. apply in_or_app; auto.
  - destruct (nth_error (b_first st) k) as [fe|]; [|discriminate]. injection E as <-. simpl.
    rewrite app_length. simpl. split; [lia|]. intros j Hj.
    destruct (Nat.eq_dec j (length (b_states st))) as [->|Hne].
    + exists (DEdge k p (length (b_states st))). split; [apply in_or_app; right; left; auto|]. simpl; auto.
    + destruct (Hen j) as (e & H1 & H2); [lia|]. exists e. split; auto. apply in_or_app; auto.
Qed.

Lemma build_labels_entered n k ps : forall st st', k < length (b_states st) -> entered (b_edges st) (length (b_states st)) ->
  foldM (build_label n k) ps st = Ok st' -> entered (b_edges st') (length (b_states st')).
Proof.
  induction ps as [|p ps IH]; intros st st' Hk Hen E; simpl in E; [injection E as <-; auto|].
  apply bind_ok in E as (st1 & E1 & E2). destruct (build_label_entered _ _ _ _ _ Hk Hen E1). eauto.
Qed.

Lemma from_nfa_entered n d : wf n -> START_IDX < nst n -> from_nfa n = Ok d -> entered (d_edges d) (length (d_first d)).
Proof.
  intros Hw Hs E. unfold from_nfa in E. apply bind_ok in E as (labels & _ & E). apply bind_ok in E as (al & _ & E).
  unfold build in E. apply bind_ok in E as (c0 & _ & E).
  set (st0 := BState [] [false] [set_of_list c0] [] []) in *.
  pose proof (run_inv (build_step n al)
    (fun st => length (b_marks st) = length (b_states st) /\ entered (b_edges st) (length (b_states st)))
    (fun r => forall st, r = Ok st -> entered (b_edges st) (length (b_states st))) (S (length (states n))) st0) as Hr.
  destruct (run (build_step n al) (S (length (states n))) st0) as [s|[st|p|]] eqn:Er; try discriminate E.
  apply bind_ok in E as (firsts & Ef & E). injection E as <-. simpl.
  assert (Hl : length firsts = length (b_states st)).
  { apply mapM_Forall2 in Ef. rewrite <- (seq_length (length (b_states st)) 0). symmetry.
    clear - Ef. induction Ef; simpl; auto. }
  rewrite Hl. apply Hr; auto; clear - al.
  - intros s s' (Hm & He) E. unfold build_step in E.
    destruct (find_index negb (b_marks s)) as [k|] eqn:Ek; [|discriminate].
    apply find_index_some in Ek as ((b & Hb & _) & _). apply nth_error_lt in Hb.
    destruct (foldM (build_label n k) al _) as [st2|p|] eqn:Ef; try discriminate. injection E as <-.
    split.
    + revert Ef. set (st1 := BState _ _ _ _ _). assert (H1 : length (b_marks st1) = length (b_states st1)).
      { simpl. rewrite update_nth_length. auto. }
      revert H1. generalize st1. clear. intros st. revert st st2. induction al as [|p al IH]; intros st st2 H1 E; simpl in E.
      * injection E as <-; auto.
      * apply bind_ok in E as (st3 & E1 & E2). apply (IH _ _) in E2; auto.
        unfold build_label in E1. destruct (nth_error (b_states st) k) as [t|]; [|discriminate].
        apply bind_ok in E1 as (m & _ & E1). apply bind_ok in E1 as (u & _ & E1).
        destruct u as [|x u]; [injection E1 as <-; auto|].
        destruct (find_index (eqb (x :: u)) (b_states st)) as [i|];
          (destruct (nth_error (b_first st) k) as [fe|]; [|discriminate]); injection E1 as <-; simpl; auto.
        rewrite !app_length; simpl; lia.
    + eapply build_labels_entered; [| |exact Ef]; simpl; [lia|auto].
  - intros s r (Hm & He) E st ->. unfold build_step in E.
    destruct (find_index negb (b_marks s)) as [k|] eqn:Ek; [|injection E as <-; auto].
    destruct (foldM (build_label n k) al _); discriminate.
  - split; auto. intros j Hj. simpl in Hj. lia.
Qed.

Lemma follows_app d s u t : follows d s u t -> forall v x, follows d t v x -> follows d s (u ++ v) x.
Proof. induction 1; intros v x Hv; simpl; auto. eapply follows_cons; eauto. Qed.

(** With pieces that refine the ranges, an edge can be taken on any character of its label. *)
Lemma edge_follows n al d ds e c : dfa_ok n al d ds -> alpha_ok (edge_labels (edges n)) al ->
  In e (d_edges d) -> matches (de_label e) c = true -> follows d (de_from e) [c] (de_to e).
Proof.
  intros Hok Ha Hin Hm. apply in_split in Hin as (l1 & l2 & El).
  (* the first matching edge is [e] itself *)
  pose proof (find_filter (fun e => matches (de_label e) c) (fun x => de_from x =? de_from e) (d_edges d)) as Hf.
  destruct (find (fun e => matches (de_label e) c) (filter (fun x => de_from x =? de_from e) (d_edges d))) as [e'|].
  - destruct Hf as (m1 & m2 & E & Hfr & Hm' & Hmin). apply Nat.eqb_eq in Hfr.
    assert (e' = e) as ->.
    { assert (I1 : In e (d_edges d)) by (rewrite El; apply in_or_app; simpl; auto).
      assert (I2 : In e' (d_edges d)) by (rewrite E; apply in_or_app; simpl; auto).
      destruct (dfa_ok_edge n al d ds e Hok I1) as (q & es & Hq & Hr & Hin1).
      pose proof Hok as (_ & _ & _ & _ & Hrows).
      destruct (Hrows _ _ Hq) as (es' & Hr' & _ & Hes').
      assert (In e es') by (rewrite Hes'; apply filter_In; split; auto; apply Nat.eqb_refl).
      assert (In e' es') by (rewrite Hes'; apply filter_In; split; auto; rewrite Hfr; apply Nat.eqb_refl).
      eapply row_unique; eauto. destruct Hok as ((c0 & (Hnd & _) & _) & _). exact Hnd. }
    eapply follows_cons; eauto; [|constructor]. intros x Hx Hfx. apply Hmin; auto. apply Nat.eqb_eq; auto.
  - exfalso. rewrite (Hf e) in Hm; [discriminate| |apply Nat.eqb_refl]. rewrite El. apply in_or_app; simpl; auto.
Qed.

Lemma dfa_reached n al d ds : dfa_ok n al d ds -> alpha_ok (edge_labels (edges n)) al ->
  entered (d_edges d) (length (d_first d)) ->
  forall s, s < length (d_first d) -> exists w, follows d 0 w s.
Proof.
  intros Hok Ha Hen s. induction s as [s IH] using (well_founded_induction lt_wf). intros Hs.
  destruct (Nat.eq_dec s 0) as [->|Hne]; [exists []; constructor|].
  destruct (Hen s) as (e & Hin & <- & Hlt); [lia|].
  destruct (IH _ Hlt) as (w & Hw); [lia|].
  destruct (dfa_ok_edge n al d ds e Hok Hin) as (q & es & _ & Hr & Hin').
  destruct (row_In _ _ _ _ _ _ _ Hr Hin') as (u & Hl & _).
  exists (w ++ [fst (de_label e)]). eapply follows_app; eauto. eapply edge_follows; eauto.
  apply matches_inr. pose proof (proj1 Ha _ Hl). unfold inr_. lia.
Qed.
