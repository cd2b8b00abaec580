(** Proofs about Overlap.v. *)
From Verif Require Import Base Regex Nfa Overlap.
Local Open Scope N_scope.

Definition inr_ (r : rng) (c : N) : Prop := fst r <= c < snd r.

Lemma matches_inr r c : matches r c = true <-> inr_ r c.
Proof.
  unfold matches, inr_. rewrite andb_true_iff, N.leb_le, N.ltb_lt. reflexivity.
Qed.

Lemma rng_empty_true r : rng_empty r = true <-> snd r <= fst r.
Proof. unfold rng_empty. rewrite negb_true_iff, N.ltb_ge. reflexivity. Qed.
Lemma rng_empty_false r : rng_empty r = false <-> fst r < snd r.
Proof. unfold rng_empty. rewrite negb_false_iff, N.ltb_lt. reflexivity. Qed.

Lemma intersects_spec a b :
  intersects a b = true <-> fst a < snd a /\ fst b < snd b /\ fst a < snd b /\ fst b < snd a.
Proof.
  unfold intersects. rewrite !andb_true_iff, !negb_true_iff, orb_true_iff, !rng_empty_false,
    !matches_inr. unfold inr_. lia.
Qed.

Lemma intersects_false a b :
  intersects a b = false <-> (snd a <= fst a \/ snd b <= fst b \/ snd b <= fst a \/ snd a <= fst b).
Proof.
  rewrite <- not_true_iff_false, intersects_spec. lia.
Qed.

(** [intersects] is "share a character". *)
Lemma intersects_char a b : intersects a b = true <-> exists c, inr_ a c /\ inr_ b c.
Proof.
  rewrite intersects_spec. unfold inr_. split.
  - intros H. exists (N.max (fst a) (fst b)). lia.
  - intros (c & H1 & H2). lia.
Qed.

Lemma parts_disjoint r o : intersects o r = true ->
  is_disjoint (low_part r o) (mid_part r o) && is_disjoint (low_part r o) (max_part r o)
  && is_disjoint (mid_part r o) (max_part r o) = true.
Proof.
  rewrite intersects_spec. intros H. unfold is_disjoint.
  rewrite !andb_true_iff, !negb_true_iff, !intersects_false. unfold low_part, mid_part, max_part; simpl.
  lia.
Qed.

Lemma sizes_app l1 l2 : sizes (l1 ++ l2) = sizes l1 + sizes l2.
Proof. induction l1; simpl; lia. Qed.

Lemma sizes_cons r l : sizes (r :: l) = rng_size r + sizes l.
Proof. reflexivity. Qed.

Lemma sizes_update l : forall i o x, nth_error l i = Some o ->
  sizes (update_nth i (fun _ => x) l) + rng_size o = sizes l + rng_size x.
Proof.
  induction l as [|y l IH]; intros [|i] o x; simpl; try discriminate.
  - intros E; injection E as ->. lia.
  - intros E. specialize (IH i o x E). lia.
Qed.

Lemma find_index_skipn {A} (f : A -> bool) start v i :
  find_index f (skipn start v) = Some i ->
  exists o, nth_error v (i + start) = Some o /\ f o = true /\
    forall k y, (start <= k < i + start)%nat -> nth_error v k = Some y -> f y = false.
Proof.
  assert (Hnth : forall j, nth_error (skipn start v) j = nth_error v (start + j)).
  { revert start. induction v as [|x v IH]; intros [|s] j; simpl; auto.
    destruct j; reflexivity. }
  intros H. apply find_index_some in H as ((x & Hx & Hf) & Hmin).
  rewrite Hnth in Hx. exists x. split; [rewrite Nat.add_comm; exact Hx|]. split; auto.
  intros k y Hk Hy. apply (Hmin (k - start)%nat); [lia|]. rewrite Hnth.
  replace (start + (k - start))%nat with k by lia. exact Hy.
Qed.

Lemma find_index_skipn_none {A} (f : A -> bool) start v :
  find_index f (skipn start v) = None ->
  forall k y, (start <= k)%nat -> nth_error v k = Some y -> f y = false.
Proof.
  assert (Hnth : forall j, nth_error (skipn start v) j = nth_error v (start + j)).
  { revert start. induction v as [|x v IH]; intros [|s] j; simpl; auto.
    destruct j; reflexivity. }
  rewrite find_index_none. intros H k y Hk Hy. apply H.
  apply (nth_error_In _ (k - start)). rewrite Hnth. replace (start + (k - start))%nat with k by lia. exact Hy.
Qed.

(** ** One step *)

(** Pending start indices are within the vector. *)
Definition ar_ok (s : ar_state) : Prop :=
  forall r st, In (r, st) (fst s) -> (st <= length (snd s))%nat.

(** The shape of a step: it never fails, and either drops the request (already present or
    empty), appends it, or splits an overlapping range. *)
Inductive ar_next (range : rng) (start : nat) (work' : list (rng * nat)) (v : list rng)
  : ar_state -> Prop :=
| arn_empty : snd range <= fst range -> ar_next range start work' v (work', v)
| arn_same i : nth_error v i = Some range -> fst range < snd range -> (start <= i)%nat ->
    (forall k y, (start <= k < i)%nat -> nth_error v k = Some y -> intersects y range = false) ->
    ar_next range start work' v (work', v)
| arn_push : fst range < snd range ->
    (forall k y, (start <= k)%nat -> nth_error v k = Some y -> intersects y range = false) ->
    ar_next range start work' v (work', v ++ [range])
| arn_split i o : nth_error v i = Some o -> intersects o range = true -> o <> range ->
    (start <= i)%nat ->
    (forall k y, (start <= k < i)%nat -> nth_error v k = Some y -> intersects y range = false) ->
    ar_next range start work' v
      ((mid_part range o, S i) :: (max_part range o, S i) :: work',
       update_nth i (fun _ => low_part range o) v).

Lemma ar_step_next range start work' v :
  ar_ok ((range, start) :: work', v) ->
  exists s', ar_step ((range, start) :: work', v) = inl s' /\ ar_next range start work' v s'.
Proof.
  intros Hok. unfold ar_step. destruct (rng_empty range) eqn:Ee.
  { eexists; split; [reflexivity|]. apply arn_empty. apply rng_empty_true; auto. }
  apply rng_empty_false in Ee.
  assert (Hs : (start <= length v)%nat) by (apply (Hok range start); left; reflexivity).
  destruct (Nat.ltb_spec (length v) start) as [Hlt|_]; [lia|].
  destruct (find_index (fun r => intersects r range) (skipn start v)) as [i|] eqn:Ef.
  - apply find_index_skipn in Ef as (o & Ho & Hi & Hmin). rewrite Ho.
    destruct (eqb o range) eqn:Eo.
    + apply eqb_eq in Eo; subst. eexists; split; [reflexivity|].
      apply arn_same with (i + start)%nat; auto. lia.
    + apply eqb_neq in Eo. rewrite parts_disjoint by auto.
      eexists; split; [reflexivity|]. apply arn_split; auto. lia.
  - eexists; split; [reflexivity|]. apply arn_push; auto. apply find_index_skipn_none; auto.
Qed.

Lemma ar_next_ok range start work' v s' :
  ar_ok ((range, start) :: work', v) -> ar_next range start work' v s' -> ar_ok s'.
Proof.
  intros Hok Hn. inversion Hn; subst; intros r st Hin; simpl in *.
  - apply (Hok r st); right; auto.
  - apply (Hok r st); right; auto.
  - rewrite app_length. specialize (Hok r st (or_intror Hin)). simpl in Hok. lia.
  - rewrite update_nth_length. pose proof (nth_error_lt _ _ _ H) as Hlt.
    destruct Hin as [E|[E|Hin]].
    + injection E as _ <-. lia.
    + injection E as _ <-. lia.
    + apply (Hok r st); right; auto.
Qed.

Lemma ar_next_measure range start work' v s' :
  ar_next range start work' v s' -> ar_measure s' < ar_measure ((range, start) :: work', v).
Proof.
  intros Hn. inversion Hn; subst; unfold ar_measure; cbn [fst snd map length];
    rewrite ?sizes_app, ?sizes_cons.
  - lia.
  - lia.
  - change (sizes []) with 0. lia.
  - pose proof (sizes_update v i o (low_part range o) H) as Hu.
    apply intersects_spec in H0. unfold rng_size, low_part, mid_part, max_part in *.
    cbn [fst snd] in *.
    set (a := sizes (update_nth i _ v)) in *. set (b := sizes v) in *.
    set (w := sizes (map fst work')) in *. clearbody a b w. lia.
Qed.

Lemma ar_step_nil v : ar_step ([], v) = inr (Ok v).
Proof. reflexivity. Qed.

(** Partial correctness rule for [ar_run], and termination, in one. *)
Lemma ar_run_rule (I : ar_state -> Prop) (s : ar_state) :
  ar_ok s -> I s ->
  (forall range start work' v s', I ((range, start) :: work', v) ->
      ar_ok ((range, start) :: work', v) ->
      ar_next range start work' v s' -> I s') ->
  exists v, ar_run s = Ok v /\ I ([], v).
Proof.
  intros Hok HI Hstep. unfold ar_run.
  assert (Hone : forall t t', ar_ok t /\ I t -> ar_step t = inl t' ->
             (ar_ok t' /\ I t') /\ ar_measure t' < ar_measure t).
  { intros [[|[range start] work'] v] t' [Ho Hi] E; [discriminate|].
    destruct (ar_step_next _ _ _ _ Ho) as (t0 & E0 & Hn). rewrite E0 in E. injection E as <-.
    split; [split|].
    - eapply ar_next_ok; eauto.
    - eapply Hstep; eauto.
    - eapply ar_next_measure; eauto. }
  destruct (run_measure ar_step (fun t => ar_ok t /\ I t) ar_measure
              (S (N.size_nat (ar_measure s))) s) as [r Er]; auto.
  { rewrite Nat2N.inj_succ. rewrite N.pow_succ_r'.
    assert (Hsz : ar_measure s < 2 ^ N.of_nat (N.size_nat (ar_measure s))).
    { replace (N.of_nat (N.size_nat (ar_measure s))) with (N.size (ar_measure s)).
      - apply N.size_gt.
      - unfold N.size, N.size_nat. destruct (ar_measure s); auto.
        clear. induction p; simpl in *; lia. }
    lia. }
  rewrite Er.
  pose proof (run_inv ar_step (fun t => ar_ok t /\ I t)
    (fun r => exists v, r = Ok v /\ I ([], v)) (S (N.size_nat (ar_measure s))) s) as HQ.
  rewrite Er in HQ. apply HQ; auto.
  - intros t t' Ht E. apply (Hone t t'); auto.
  - intros [[|[range start] work'] v] r' [Ho Hi] E.
    + rewrite ar_step_nil in E. injection E as <-. eauto.
    + destruct (ar_step_next _ _ _ _ Ho) as (t0 & E0 & Hn). congruence.
Qed.

(** ** Coverage *)

Definition covered (l : list rng) (c : N) : Prop := exists r, In r l /\ inr_ r c.

Lemma covered_app l1 l2 c : covered (l1 ++ l2) c <-> covered l1 c \/ covered l2 c.
Proof.
  unfold covered. split.
  - intros (r & Hr & Hc). apply in_app_or in Hr as [Hr|Hr]; eauto.
  - intros [(r & Hr & Hc)|(r & Hr & Hc)]; exists r; split; auto using in_or_app.
Qed.

Lemma covered_cons r l c : covered (r :: l) c <-> inr_ r c \/ covered l c.
Proof.
  unfold covered. split.
  - intros (x & [<-|Hx] & Hc); eauto.
  - intros [Hc|(x & Hx & Hc)]; [exists r; simpl; auto|exists x; simpl; auto].
Qed.

Lemma covered_update v i o x c : nth_error v i = Some o ->
  covered (update_nth i (fun _ => x) v) c \/ inr_ o c <-> covered v c \/ inr_ x c.
Proof.
  revert i; induction v as [|y v IH]; intros [|i]; simpl; try discriminate.
  - intros E; injection E as ->. rewrite !covered_cons. tauto.
  - intros E. rewrite !covered_cons. specialize (IH i E). tauto.
Qed.

Lemma update_nth_In {A} i (x y : A) v :
  In y (update_nth i (fun _ => x) v) -> y = x \/ In y v.
Proof.
  revert i; induction v as [|z v IH]; intros [|i]; simpl; auto.
  - intros [<-|Hin]; auto.
  - intros [<-|Hin]; auto. apply IH in Hin. tauto.
Qed.

Lemma In_update_nth {A} i (x o y : A) v : nth_error v i = Some o ->
  In y v -> y = o \/ In y (update_nth i (fun _ => x) v).
Proof.
  revert i; induction v as [|z v IH]; intros [|i]; simpl; try discriminate; try tauto.
  - intros E; injection E as ->. intros [->|Hin]; auto.
  - intros E [->|Hin]; auto. destruct (IH i E Hin); auto.
Qed.

Lemma update_nth_In_new {A} i (x o : A) v : nth_error v i = Some o ->
  In x (update_nth i (fun _ => x) v).
Proof.
  revert i; induction v as [|z v IH]; intros [|i]; simpl; try discriminate; auto.
Qed.

(** Covered characters, counting the pending requests, never change. *)
Lemma ar_next_covered range start work' v s' c :
  ar_next range start work' v s' ->
  covered (map fst (fst s')) c \/ covered (snd s') c <->
  covered (range :: map fst work') c \/ covered v c.
Proof.
  intros Hn. inversion Hn; subst; simpl.
  - rewrite covered_cons. unfold inr_ in *. split; [tauto|]. intros [[?|?]|?]; auto. lia.
  - rewrite covered_cons. split; [tauto|]. intros [[?|?]|?]; auto. right. exists range. split; auto.
    eapply nth_error_In; eauto.
  - rewrite covered_cons, covered_app, covered_cons. unfold covered at 3; simpl.
    split; [|tauto]. intros [?|[?|[?|(r & [] & _)]]]; auto.
  - rewrite !covered_cons. pose proof (covered_update v i o (low_part range o) c H) as Hu.
    apply intersects_spec in H0.
    assert (Hp : inr_ (low_part range o) c \/ inr_ (mid_part range o) c \/ inr_ (max_part range o) c
                 <-> inr_ range c \/ inr_ o c).
    { unfold inr_, low_part, mid_part, max_part; simpl. lia. }
    assert (Ho : inr_ o c -> covered v c) by (intros; exists o; split; auto; eapply nth_error_In; eauto).
    assert (Hx : inr_ (low_part range o) c -> covered (update_nth i (fun _ => low_part range o) v) c).
    { intros; exists (low_part range o); split; auto. eapply update_nth_In_new; eauto. }
    tauto.
Qed.

Lemma add_range_covered range v :
  exists v', add_range range 0 v = Ok v' /\
    forall c, covered v' c <-> inr_ range c \/ covered v c.
Proof.
  unfold add_range.
  destruct (ar_run_rule (fun s => forall c, covered (map fst (fst s)) c \/ covered (snd s) c <->
                                   inr_ range c \/ covered v c) ([(range, O)], v))
    as (v' & E & Hv').
  - intros r st [E|[]]. injection E as <- <-. simpl. lia.
  - intros c. simpl. rewrite covered_cons. split; [|tauto].
    intros [[?|(r & [] & _)]|?]; auto.
  - intros r st work' w s' HI _ Hn c. rewrite (ar_next_covered _ _ _ _ _ c Hn). apply (HI c).
  - exists v'. split; auto. intros c. specialize (Hv' c). simpl in Hv'. rewrite <- Hv'.
    split; auto. intros [(r & [] & _)|?]; auto.
Qed.

(** C03: termination, no failed assertion, coverage. *)
Lemma remove_overlap_covered ranges :
  exists v, remove_overlap ranges = Ok v /\
    (forall r, In r v -> fst r < snd r) /\
    (forall c, covered v c <-> covered ranges c).
Proof.
  unfold remove_overlap.
  assert (G : forall l v, exists v', foldM (fun v r => add_range r 0 v) l v = Ok v' /\
      forall c, covered v' c <-> covered l c \/ covered v c).
  { induction l as [|r l IH]; intros v; simpl.
    - exists v; split; auto. intros c; split; auto. intros [(r & [] & _)|?]; auto.
    - destruct (add_range_covered r v) as (v1 & E1 & H1). rewrite E1; simpl.
      destruct (IH v1) as (v2 & E2 & H2). exists v2. split; auto.
      intros c. rewrite H2, H1, covered_cons. tauto. }
  destruct (G ranges []) as (v & E & Hv). rewrite E; simpl.
  eexists; split; [reflexivity|]. split.
  - intros r Hr. apply filter_In in Hr as [_ Hr]. apply negb_true_iff in Hr. apply rng_empty_false; auto.
  - intros c. split.
    + intros (r & Hr & Hc). apply filter_In in Hr as [Hr _].
      destruct (proj1 (Hv c)) as [?|(x & [] & _)]; auto. exists r; auto.
    + intros Hc. destruct (proj2 (Hv c) (or_introl Hc)) as (r & Hr & Hrc).
      exists r; split; auto. apply filter_In. split; auto. apply negb_true_iff, rng_empty_false.
      unfold inr_ in Hrc. lia.
Qed.

(** ** End points *)

(** The end points of the non-empty ranges, counting the pending requests, never change. *)
Definition end_of (l : list rng) (b : N) : Prop := exists r, In r l /\ fst r < snd r /\ (b = fst r \/ b = snd r).

Lemma ar_next_ends range start work' v s' b :
  ar_next range start work' v s' ->
  end_of (range :: map fst work' ++ v) b <-> end_of (map fst (fst s') ++ snd s') b.
Proof.
  intros Hn. inversion Hn as [He|i Hi He Hst Hmin|He Hno|i o Ho Hx Hneq Hst Hmin]; subst; cbn [fst snd map].
  - split; intros (r & Hr & H1 & H2).
    + destruct Hr as [<-|Hr]; [lia|]. exists r; auto.
    + exists r. split; [right|]; auto.
  - split; intros (r & Hr & H1 & H2).
    + exists r. split; auto. destruct Hr as [<-|Hr]; auto. apply in_or_app. right. eapply nth_error_In; eauto.
    + exists r. split; [right|]; auto.
  - split; intros (r & Hr & H1 & H2); exists r; split; auto; simpl in *; rewrite !in_app_iff in *; simpl in *; tauto.
  - apply intersects_spec in Hx. pose proof (update_nth_In_new i (low_part range o) o v Ho) as Hlow.
    apply nth_error_In in Ho as Hino. unfold end_of. split; intros (r & Hr & H1 & H2).
    + assert (Hcase : (r = range \/ r = o) \/ In r (map fst work' ++ update_nth i (fun _ => low_part range o) v)).
      { destruct Hr as [Hr|Hr]; auto. apply in_app_or in Hr as [Hr|Hr]; [right; apply in_or_app; auto|].
        destruct (In_update_nth i (low_part range o) o r v Ho Hr); auto. right. apply in_or_app; auto. }
      clear Hr. destruct Hcase as [Hr|Hr]; [|exists r; simpl; auto].
      assert (Hb : b = fst range \/ b = snd range \/ b = fst o \/ b = snd o) by (destruct Hr; subst; tauto). clear r Hr H1 H2.
      destruct (N.eq_dec b (N.max (fst range) (fst o))) as [->|].
      { exists (mid_part range o). unfold mid_part; simpl. split; auto. lia. }
      destruct (N.eq_dec b (N.min (snd range) (snd o))) as [->|].
      { exists (mid_part range o). unfold mid_part; simpl. split; auto. lia. }
      destruct (N.eq_dec b (N.min (fst range) (fst o))) as [->|].
      { exists (low_part range o). split; [simpl; right; right; apply in_or_app; auto|]. unfold low_part; simpl. lia. }
      { exists (max_part range o). split; [simpl; auto|]. unfold max_part; simpl. lia. }
    + assert (Hcase : (r = low_part range o \/ r = mid_part range o \/ r = max_part range o) \/ In r (map fst work' ++ v)).
      { destruct Hr as [<-|[<-|Hr]]; auto. apply in_app_or in Hr as [Hr|Hr]; [right; apply in_or_app; auto|].
        apply update_nth_In in Hr as [->|Hr]; auto. right. apply in_or_app; auto. }
      clear Hr. destruct Hcase as [Hr|Hr]; [|exists r; simpl; auto].
      assert (Hb : b = fst range \/ b = snd range \/ b = fst o \/ b = snd o).
      { unfold low_part, mid_part, max_part in Hr. destruct Hr as [->|[->| ->]]; cbn [fst snd] in H2; lia. }
      assert (Hino' : In o (range :: map fst work' ++ v)) by (right; apply in_or_app; auto).
      destruct Hb as [->|[->|[->| ->]]]; [exists range|exists range|exists o|exists o]; simpl; split; auto; lia.
Qed.

Lemma end_of_app l1 l2 b : end_of (l1 ++ l2) b <-> end_of l1 b \/ end_of l2 b.
Proof.
  unfold end_of. split.
  - intros (r & Hr & H). apply in_app_or in Hr as [Hr|Hr]; eauto.
  - intros [(r & Hr & H)|(r & Hr & H)]; exists r; split; auto using in_or_app.
Qed.

Lemma add_range_ends range v : exists v', add_range range 0 v = Ok v' /\
  forall b, end_of v' b <-> end_of (range :: v) b.
Proof.
  unfold add_range.
  destruct (ar_run_rule (fun s => forall b, end_of (range :: v) b <-> end_of (map fst (fst s) ++ snd s) b) ([(range, O)], v)) as (v' & E & Hv').
  - intros r st [E|[]]. injection E as <- <-. simpl. lia.
  - intros b. reflexivity.
  - intros r st work' w s' HI _ Hn b. rewrite (HI b). apply (ar_next_ends _ _ _ _ _ b Hn).
  - exists v'. split; auto. intros b. symmetry. apply Hv'.
Qed.

Lemma remove_overlap_ends ranges v : remove_overlap ranges = Ok v -> forall b, end_of v b <-> end_of ranges b.
Proof.
  unfold remove_overlap.
  assert (G : forall l v, exists v', foldM (fun v r => add_range r 0 v) l v = Ok v' /\ forall b, end_of v' b <-> end_of l b \/ end_of v b).
  { induction l as [|r l IH]; intros w; simpl.
    - exists w; split; auto. intros b; split; auto. intros [(r & [] & _)|?]; auto.
    - destruct (add_range_ends r w) as (v1 & E1 & H1). rewrite E1; simpl.
      destruct (IH v1) as (v2 & E2 & H2). exists v2. split; auto.
      intros b. rewrite H2, H1. change (r :: l) with ([r] ++ l). change (r :: w) with ([r] ++ w). rewrite !end_of_app. tauto. }
  destruct (G ranges []) as (w & E & Hw). rewrite E; simpl. intros Ev b. injection Ev as <-.
  assert (Hf : end_of (filter (fun r => negb (rng_empty r)) w) b <-> end_of w b).
  { split; intros (r & Hr & H1 & H2); exists r; split; auto.
    - apply filter_In in Hr. apply Hr.
    - apply filter_In. split; auto. apply negb_true_iff, rng_empty_false; auto. }
  rewrite Hf, Hw. split; auto. intros [H|(r & [] & _)]; auto.
Qed.

(** A split in which only equal pieces overlap refines every range. *)
Lemma disjoint_refines ranges v : remove_overlap ranges = Ok v ->
  (forall a b, In a v -> In b v -> a = b \/ forall c, ~ (inr_ a c /\ inr_ b c)) ->
  forall r p c d, In r v -> In p ranges -> inr_ r c -> inr_ r d -> inr_ p c -> inr_ p d.
Proof.
  intros E Hd r p c d Hr Hp Hrc Hrd Hpc.
  assert (Hne : fst p < snd p) by (unfold inr_ in Hpc; lia).
  assert (Hin : forall b, end_of ranges b -> ~ fst r < b < snd r).
  { intros b Hb Hlt. apply (remove_overlap_ends _ _ E) in Hb as (q & Hq & Hqne & Hqb).
    assert (Hq' : q = r \/ forall c, ~ (inr_ q c /\ inr_ r c)).
    { apply Hd; auto. }
    unfold inr_ in Hq'. destruct Hq' as [->|Hq']; [lia|]. destruct Hqb as [->| ->].
    - apply (Hq' (fst q)). lia.
    - apply (Hq' (snd q - 1)). lia. }
  pose proof (Hin (fst p) (ex_intro _ p (conj Hp (conj Hne (or_introl eq_refl))))).
  pose proof (Hin (snd p) (ex_intro _ p (conj Hp (conj Hne (or_intror eq_refl))))). unfold inr_ in *. lia.
Qed.

(** And a split that refines every range has only equal pieces overlapping. *)
Lemma refines_disjoint ranges v : remove_overlap ranges = Ok v ->
  (forall r p c d, In r v -> In p ranges -> inr_ r c -> inr_ r d -> inr_ p c -> inr_ p d) ->
  forall a b, In a v -> In b v -> a = b \/ forall c, ~ (inr_ a c /\ inr_ b c).
Proof.
  intros E Href.
  assert (Hne : forall r, In r v -> fst r < snd r).
  { intros r Hr. destruct (remove_overlap_covered ranges) as (v' & E' & H & _). rewrite E in E'. injection E' as <-. auto. }
  assert (Hno : forall r b, In r v -> end_of ranges b -> ~ fst r < b < snd r).
  { intros r b Hr (p & Hp & Hpne & [->| ->]) Hlt.
    - pose proof (Href r p (fst p) (fst p - 1) Hr Hp) as H. unfold inr_ in H. lia.
    - pose proof (Href r p (snd p - 1) (snd p) Hr Hp) as H. unfold inr_ in H. lia. }
  intros a b Ha Hb. pose proof (Hne a Ha). pose proof (Hne b Hb).
  assert (Hend : forall r, In r v -> end_of ranges (fst r) /\ end_of ranges (snd r)).
  { intros r Hr. split; apply (remove_overlap_ends _ _ E); exists r; auto. }
  pose proof (Hno a (fst b) Ha (proj1 (Hend b Hb))). pose proof (Hno a (snd b) Ha (proj2 (Hend b Hb))).
  pose proof (Hno b (fst a) Hb (proj1 (Hend a Ha))). pose proof (Hno b (snd a) Hb (proj2 (Hend a Ha))).
  destruct a as [a1 a2], b as [b1 b2]. cbn [fst snd] in *.
  destruct (N.eq_dec a1 b1) as [->|]; [destruct (N.eq_dec a2 b2) as [->|]; [left; auto|]|]; right; intros c; unfold inr_; cbn [fst snd]; lia.
Qed.
