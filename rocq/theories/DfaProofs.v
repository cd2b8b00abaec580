(** Proofs about the subset construction. *)
From Verif Require Import Base Regex Nfa NfaProofs Overlap OverlapProofs OverlapLaminar Dfa.

(** ** Closure and move on sorted sets *)

Lemma dclo_push_spec es : forall set stack, ssorted set ->
  exists set' ts, dclo_push es set stack = (set', ts ++ stack) /\ ssorted set' /\
    length set' = length set + length ts /\
    (forall t, In t ts -> ~ In t set /\ exists e, In e es /\ e_label e = None /\ e_to e = t) /\
    (forall t, In t set' <-> In t set \/ In t ts) /\
    (forall e, In e es -> e_label e = None -> In (e_to e) set').
Proof.
  induction es as [|e es IH]; intros set stack Hs; simpl.
  - exists set, []. split; auto. split; auto. split; [simpl; lia|].
    split; [intros t []|]. split; [simpl; tauto|intros e []].
  - destruct (e_label e) as [m|] eqn:El.
    + destruct (IH set stack Hs) as (set' & ts & E & H1 & H2 & H3 & H4 & H5).
      exists set', ts. split; auto. split; auto. split; auto. split; [|split; auto].
      * intros t Ht. destruct (H3 t Ht) as [Hn (e' & He & Hl)]. split; auto. exists e'; simpl; auto.
      * intros e' [<-|He'] El'; [congruence|auto].
    + destruct (set_mem (e_to e) set) eqn:Em.
      * apply set_mem_In in Em.
        destruct (IH set stack Hs) as (set' & ts & E & H1 & H2 & H3 & H4 & H5).
        exists set', ts. split; auto. split; auto. split; auto. split; [|split; auto].
        -- intros t Ht. destruct (H3 t Ht) as [Hn (e' & He & Hl)]. split; auto. exists e'; simpl; auto.
        -- intros e' [<-|He'] El'; auto. apply H4; auto.
      * apply set_mem_false in Em.
        destruct (IH (set_insert (e_to e) set) (e_to e :: stack)) as
          (set' & ts & E & H1 & H2 & H3 & H4 & H5); [apply set_insert_sorted; auto|].
        exists set', (ts ++ [e_to e]). rewrite <- app_assoc. split; auto. split; auto.
        split; [|split; [|split]].
        -- rewrite H2, set_insert_length, app_length by auto. simpl. lia.
        -- intros t Ht. apply in_app_or in Ht as [Ht|[<-|[]]].
           ++ destruct (H3 t Ht) as [Hn (e' & He & Hl)]. split.
              ** intros Hin; apply Hn. apply set_insert_In; auto.
              ** exists e'; simpl; auto.
           ++ split; auto. exists e; simpl; auto.
        -- intros t. rewrite H4, set_insert_In, in_app_iff. simpl. intuition auto.
        -- intros e' [<-|He'] El'; auto. apply H4. left. apply set_insert_In; auto.
Qed.

Lemma ssorted_bound_length (l : list nat) n : ssorted l -> (forall x, In x l -> x < n) -> length l <= n.
Proof.
  intros Hs Hb. rewrite <- (seq_length n 0). apply NoDup_incl_length; [apply ssorted_NoDup; auto|].
  intros x Hx. apply in_seq. apply Hb in Hx. lia.
Qed.

Definition dclo_inv (n : nfa) (init set stack : list nat) : Prop :=
  ssorted set /\ (forall s, In s set -> s < nst n) /\ incl stack set /\
  (forall t, In t set -> exists s, In s init /\ eps_reach n s t) /\
  (forall s, In s init -> In s set) /\
  (forall s t, In s set -> ~ In s stack -> eps_targets n s t -> In t set).

Lemma dclo_loop_ok n init : wf n -> forall fuel set stack,
  dclo_inv n init set stack -> length stack + (nst n - length set) <= fuel ->
  exists r, dclo_loop fuel n set stack = Ok r /\ ssorted r /\ (forall s, In s r -> s < nst n) /\
    forall t, In t r <-> exists s, In s init /\ eps_reach n s t.
Proof.
  intros Hw fuel. induction fuel as [|fuel IH]; intros set stack (I1 & I2 & I3 & I4 & I5 & I6) Hf.
  - destruct stack as [|s stack]; [|simpl in Hf; lia]. simpl. exists set. split; auto. split; auto.
    split; auto. intros t; split; [apply I4|]. intros (s & Hs & Hr).
    assert (G : forall x w y, path (edges n) x w y -> w = [] -> In x set -> In y set).
    { induction 1; intros Ew Hx; auto; [|discriminate]. apply IHpath; auto.
      eapply I6; eauto. }
    eapply G; eauto.
  - destruct stack as [|s stack]; simpl.
    + exists set. split; auto. split; auto. split; auto. intros t; split; [apply I4|]. intros (s & Hs & Hr).
      assert (G : forall x w y, path (edges n) x w y -> w = [] -> In x set -> In y set).
      { induction 1; intros Ew Hx; auto; [|discriminate]. apply IHpath; auto.
        eapply I6; eauto. }
      eapply G; eauto.
    + assert (Hsn : s < nst n) by (apply I2, I3; left; auto).
      rewrite (edge_iter_wf n s Hw Hsn). simpl.
      set (es := filter (fun e => e_from e =? s) (edges n)).
      destruct (dclo_push_spec es set stack I1) as (set' & ts & E & H1 & H2 & H3 & H4 & H5).
      rewrite E.
      assert (Hes : forall e, In e es -> In e (edges n) /\ e_from e = s).
      { intros e He. unfold es in He. apply filter_In in He as [He Hf']. apply Nat.eqb_eq in Hf'; auto. }
      assert (Hb : forall x, In x set' -> x < nst n).
      { intros x Hx. apply H4 in Hx as [Hx|Hx]; auto.
        destruct (H3 x Hx) as (_ & e & He & _ & <-). apply Hes in He as [He _].
        apply (proj1 Hw) in He. apply He. }
      apply IH.
      * split; auto. split; auto. split; [|split; [|split]].
        -- intros x Hx. apply in_app_or in Hx as [Hx|Hx]; apply H4; auto. left. apply I3; right; auto.
        -- intros x Hx. apply H4 in Hx as [Hx|Hx]; auto.
           destruct (H3 x Hx) as (_ & e & He & El & <-). apply Hes in He as [He Ef].
           destruct (I4 s (I3 s (or_introl eq_refl))) as (s0 & Hs0 & Hr).
           exists s0; split; auto. eapply eps_reach_step; eauto.
           destruct e as [ef el et]; simpl in *; subst; auto.
        -- intros x Hx. apply H4; left; auto.
        -- intros x t Hx Hnx Ht. destruct (Nat.eq_dec x s) as [->|Hne].
           ++ apply (H5 (Edge s None t)); auto. unfold es. apply filter_In. split; auto.
              simpl. apply Nat.eqb_refl.
           ++ apply H4. left. apply H4 in Hx as [Hx|Hx].
              ** eapply I6; eauto. intros [<-|Hin]; auto. apply Hnx, in_or_app; auto.
              ** exfalso. apply Hnx, in_or_app; auto.
      * rewrite app_length, H2. pose proof (ssorted_bound_length set' (nst n) H1 Hb).
        simpl in Hf. lia.
Qed.

Lemma dfa_epsilon_closure_ok n set : wf n -> ssorted set -> (forall s, In s set -> s < nst n) ->
  exists r, dfa_epsilon_closure n set = Ok r /\ ssorted r /\ (forall s, In s r -> s < nst n) /\
    forall t, In t r <-> exists s, In s set /\ eps_reach n s t.
Proof.
  intros Hw Hs Hb. unfold dfa_epsilon_closure. apply dclo_loop_ok; auto.
  - split; auto. split; auto. split; [intros x Hx; rewrite in_rev; auto|].
    split; [intros t Ht; exists t; split; auto; constructor|]. split; auto.
    intros s t Hin Hn. exfalso. apply Hn. rewrite <- in_rev; auto.
  - rewrite rev_length. pose proof (ssorted_bound_length set (nst n) Hs Hb). unfold nst in *. lia.
Qed.

(** An NFA edge is taken on a piece of the alphabet when its label contains both ends. *)
Definition takes (m p : rng) : bool := matches m (fst p) && matches m (snd p - 1)%N.

Lemma move_inner label es : (snd label <> 0)%N -> forall ret, exists r,
  foldM (fun ret e =>
      match e_label e with
      | None => Ok ret
      | Some l =>
          if matches l (fst label) then
            if (snd label =? 0)%N then Panic PUnderflow
            else Ok (if matches l (snd label - 1)%N then set_insert (e_to e) ret else ret)
          else Ok ret
      end) es ret = Ok r /\ (ssorted ret -> ssorted r) /\
   forall t, In t r <-> In t ret \/ exists e m, In e es /\ e_label e = Some m /\ takes m label = true /\ e_to e = t.
Proof.
  intros Hl. induction es as [|e es IH]; intros ret; simpl.
  - exists ret. split; auto. split; auto. intros t; split; auto. intros [H|(e & m & [] & _)]; auto.
  - apply N.eqb_neq in Hl as Hl'.
    assert (G : forall ret', (ssorted ret -> ssorted ret') ->
       (forall t, In t ret' <-> In t ret \/ exists m, e_label e = Some m /\ takes m label = true /\ e_to e = t) ->
       exists r, foldM (fun ret e =>
      match e_label e with
      | None => Ok ret
      | Some l =>
          if matches l (fst label) then
            if (snd label =? 0)%N then Panic PUnderflow
            else Ok (if matches l (snd label - 1)%N then set_insert (e_to e) ret else ret)
          else Ok ret
      end) es ret' = Ok r /\ (ssorted ret -> ssorted r) /\
      forall t, In t r <-> In t ret \/ exists e' m, (e = e' \/ In e' es) /\ e_label e' = Some m /\ takes m label = true /\ e_to e' = t).
    { intros ret' Hs' Hin'. destruct (IH ret') as (r & E & Hsr & Hr). exists r. split; auto. split; auto.
      intros t. rewrite Hr, Hin'. split.
      - intros [[H|(m & H1 & H2 & H3)]|(e' & m & H1 & H2)]; eauto 10.
      - intros [H|(e' & m & [<-|H1] & H2 & H3 & H4)]; eauto 10. }
    destruct (e_label e) as [m|] eqn:El; simpl.
    + destruct (matches m (fst label)) eqn:E1; simpl.
      * rewrite Hl' in G |- *. simpl. destruct (matches m (snd label - 1)%N) eqn:E2.
        -- apply G; [apply set_insert_sorted|]. intros t. rewrite set_insert_In. split.
           ++ intros [->|H]; auto. right. exists m. unfold takes. rewrite E1, E2; auto.
           ++ intros [H|(m' & H1 & H2 & H3)]; auto.
        -- apply G; auto. intros t; split; auto. intros [H|(m' & H1 & H2 & H3)]; auto.
           injection H1 as <-. unfold takes in H2. rewrite E2, andb_false_r in H2; discriminate.
      * apply G; auto. intros t; split; auto. intros [H|(m' & H1 & H2 & H3)]; auto.
        injection H1 as <-. unfold takes in H2. rewrite E1 in H2; discriminate.
    + apply G; auto. intros t; split; auto. intros [H|(m' & H1 & H2 & H3)]; auto. discriminate.
Qed.

Lemma move_set_ok n set label : wf n -> (snd label <> 0)%N -> (forall s, In s set -> s < nst n) ->
  exists r, move_set n set label = Ok r /\ ssorted r /\ (forall s, In s r -> s < nst n) /\
    forall t, In t r <-> exists s m, In s set /\ In (Edge s (Some m) t) (edges n) /\ takes m label = true.
Proof.
  intros Hw Hl Hs. unfold move_set.
  assert (G : forall l ret, (forall s, In s l -> s < nst n) -> ssorted ret ->
    exists r, foldM (fun ret s =>
    let* es := edge_iter n s in
    foldM (fun ret e =>
      match e_label e with
      | None => Ok ret
      | Some l =>
          if matches l (fst label) then
            if (snd label =? 0)%N then Panic PUnderflow
            else Ok (if matches l (snd label - 1)%N then set_insert (e_to e) ret else ret)
          else Ok ret
      end) es ret) l ret = Ok r /\ ssorted r /\
     forall t, In t r <-> In t ret \/ exists s m, In s l /\ In (Edge s (Some m) t) (edges n) /\ takes m label = true).
  { induction l as [|s l IH]; intros ret Hb Hr; simpl.
    - exists ret. split; auto. split; auto. intros t; split; auto. intros [H|(s & m & [] & _)]; auto.
    - rewrite (edge_iter_wf n s Hw) by (apply Hb; left; auto). simpl.
      destruct (move_inner label (filter (fun e => e_from e =? s) (edges n)) Hl ret) as (r1 & E1 & S1 & H1).
      rewrite E1. simpl. destruct (IH r1) as (r & E & Sr & Hr'); auto.
      { intros x Hx; apply Hb; right; auto. }
      exists r. split; auto. split; auto. intros t. rewrite Hr', H1. split.
      + intros [[H|(e & m & He & El & Ht & <-)]|(s' & m & Hs' & He & Ht)]; auto.
        * right. apply filter_In in He as [He Ef]. apply Nat.eqb_eq in Ef.
          exists s, m. split; auto. split; auto. destruct e; simpl in *; subst; auto.
        * right. exists s', m. auto.
      + intros [H|(s' & m & [<-|Hs'] & He & Ht)]; auto.
        * left. right. exists (Edge s (Some m) t), m. split; auto. apply filter_In. split; auto.
          simpl; apply Nat.eqb_refl.
        * right. exists s', m; auto. }
  destruct (G set [] Hs I) as (r & E & Sr & Hr). exists r. split; auto. split; auto.
  assert (Hr2 : forall t, In t r <-> exists s m, In s set /\ In (Edge s (Some m) t) (edges n) /\ takes m label = true).
  { intros t. rewrite Hr. simpl. tauto. }
  split; auto. intros t Ht. apply Hr2 in Ht as (s & m & _ & He & _). apply (proj1 Hw) in He. apply He.
Qed.

(** The successor of a set of NFA states on a piece. *)
Definition succ_set (n : nfa) (q : list nat) (p : rng) (u : list nat) : Prop :=
  ssorted u /\ (forall s, In s u -> s < nst n) /\
  forall t, In t u <-> exists s m v, In s q /\ In (Edge s (Some m) v) (edges n) /\ takes m p = true /\
                                     eps_reach n v t.

Lemma succ_set_ok n q p : wf n -> (snd p <> 0)%N -> (forall s, In s q -> s < nst n) ->
  exists m u, move_set n q p = Ok m /\ dfa_epsilon_closure n m = Ok u /\ succ_set n q p u.
Proof.
  intros Hw Hp Hq. destruct (move_set_ok n q p Hw Hp Hq) as (m & Em & Sm & Bm & Hm).
  destruct (dfa_epsilon_closure_ok n m Hw Sm Bm) as (u & Eu & Su & Bu & Hu).
  exists m, u. split; auto. split; auto. split; auto. split; auto.
  intros t. rewrite Hu. split.
  - intros (v & Hv & Hr). apply Hm in Hv as (s & l & H1 & H2 & H3). exists s, l, v; auto.
  - intros (s & l & v & H1 & H2 & H3 & H4). exists v; split; auto. apply Hm. eauto.
Qed.

Lemma succ_set_det n q p u u' : succ_set n q p u -> succ_set n q p u' -> u = u'.
Proof.
  intros (S1 & _ & H1) (S2 & _ & H2). apply ssorted_ext; auto. intros x. rewrite H1, H2. reflexivity.
Qed.

(** ** The build loop *)

Section Build.
  Variable n : nfa.
  Variable alphabet : list rng.
  Hypothesis Hw : wf n.
  Hypothesis Hstart : START_IDX < nst n.
  Hypothesis Halpha : forall p, In p alphabet -> (snd p <> 0)%N.

  (** The edges of one DFA state. *)
  Inductive row (ds : list (list nat)) (q : list nat) (t : nat) : list rng -> list dedge -> Prop :=
  | row_nil : row ds q t [] []
  | row_skip p ps es : succ_set n q p [] -> row ds q t ps es -> row ds q t (p :: ps) es
  | row_edge p ps es u j : succ_set n q p u -> u <> [] -> nth_error ds j = Some u ->
      row ds q t ps es -> row ds q t (p :: ps) (DEdge t p j :: es).

  Lemma row_mono ds ds' q t ps es : row ds q t ps es -> row (ds ++ ds') q t ps es.
  Proof.
    induction 1; [constructor|constructor; auto|]. eapply row_edge; eauto.
    rewrite nth_error_app1; eauto using nth_error_lt.
  Qed.

  Lemma row_app ds q t ps1 ps2 es1 es2 :
    row ds q t ps1 es1 -> row ds q t ps2 es2 -> row ds q t (ps1 ++ ps2) (es1 ++ es2).
  Proof. induction 1; simpl; intros; auto; [apply row_skip|eapply row_edge]; eauto. Qed.

  Lemma row_from ds q t ps es e : row ds q t ps es -> In e es -> de_from e = t.
  Proof. induction 1; simpl; intros Hin; [destruct Hin|auto|destruct Hin as [<-|Hin]; auto]. Qed.

  Definition states_ok (c0 : list nat) (ds : list (list nat)) : Prop :=
    NoDup ds /\ (forall q, In q ds -> ssorted q /\ q <> [] /\ forall s, In s q -> s < nst n) /\
    nth_error ds 0 = Some c0.

  Definition map_ok (ds : list (list nat)) (m : list (nat * list nat)) : Prop :=
    m = combine (seq 1 (length ds - 1)) (tl ds).

  (** Rows emitted so far, and the index of the first edge of each. *)
  Definition rows_ok (ds : list (list nat)) (k : nat) (first : list (option nat)) (rows : list (list dedge)) : Prop :=
    length rows = k /\ length first = k /\
    (forall t es, nth_error rows t = Some es ->
       exists q, nth_error ds t = Some q /\ row ds q t alphabet es) /\
    (forall t es, nth_error rows t = Some es ->
       nth_error first t = Some (match es with [] => None | _ => Some (length (concat (firstn t rows))) end)).

  Definition binv (c0 : list nat) (st : bstate) : Prop :=
    exists k rows,
      b_marks st = repeat true k ++ repeat false (length (b_states st) - k) /\
      k <= length (b_states st) /\
      states_ok c0 (b_states st) /\ map_ok (b_states st) (b_map st) /\
      rows_ok (b_states st) k (b_first st) rows /\ b_edges st = concat rows.

  Lemma map_ok_snoc ds m u : ds <> [] -> map_ok ds m -> map_ok (ds ++ [u]) (map_insert (length ds) u m).
  Proof.
    intros Hne ->. unfold map_ok. destruct ds as [|d ds]; [congruence|]. simpl.
    rewrite app_length. simpl. replace (length ds - 0) with (length ds) by lia.
    replace (length ds + 1 - 0) with (length ds + 1) by lia.
    rewrite seq_app. simpl.
    assert (G : forall (l : list (list nat)) a, map_insert (a + length l) u (combine (seq a (length l)) l)
              = combine (seq a (length l)) l ++ [(a + length l, u)]).
    { unfold map_insert. induction l as [|x l IH]; intros a; simpl; auto.
      simpl. destruct (Nat.compare_spec (a + S (length l)) a); try lia.
      f_equal. replace (a + S (length l)) with (S a + length l) by lia. apply IH. }
    change (S (length ds)) with (1 + length ds). rewrite G.
    assert (G2 : forall (l l' : list nat) (r r' : list (list nat)), length l = length r ->
              combine (l ++ l') (r ++ r') = combine l r ++ combine l' r').
    { induction l as [|x l IH]; intros l' [|y r] r' E; simpl in *; try discriminate; auto.
      f_equal; apply IH; lia. }
    rewrite G2; [reflexivity|]. apply seq_length.
  Qed.

  (** Invariant inside the loop over the alphabet: row [k] is being emitted. *)
  Definition linv (c0 q : list nat) (k : nat) (done : list rng) (st : bstate) : Prop :=
    exists rows es f,
      b_marks st = repeat true (S k) ++ repeat false (length (b_states st) - S k) /\
      S k <= length (b_states st) /\
      states_ok c0 (b_states st) /\ map_ok (b_states st) (b_map st) /\
      rows_ok (b_states st) k f rows /\ b_edges st = concat rows ++ es /\
      nth_error (b_states st) k = Some q /\ row (b_states st) q k done es /\
      b_first st = f ++ [match es with [] => None | _ => Some (length (concat rows)) end].

  Lemma rows_ok_mono ds ds' k f rows : rows_ok ds k f rows -> rows_ok (ds ++ ds') k f rows.
  Proof.
    intros (H1 & H2 & H3 & H4). split; [|split; [|split]]; auto.
    intros t es Ht. destruct (H3 t es Ht) as (q & Hq & Hr). exists q. split.
    - rewrite nth_error_app1; eauto using nth_error_lt.
    - apply row_mono; auto.
  Qed.

  Lemma update_nth_snoc {A} (l : list A) x f : update_nth (length l) f (l ++ [x]) = l ++ [f x].
  Proof. induction l; simpl; congruence. Qed.

  Lemma build_label_ok c0 q k done p st : In p alphabet -> linv c0 q k done st ->
    exists st', build_label n k st p = Ok st' /\ linv c0 q k (done ++ [p]) st' /\
                length (b_states st) <= length (b_states st').
  Proof.
    intros Hp (rows & es & f & Hm & Hk & Hds & Hmap & Hrows & He & Hq & Hrow & Hf).
    unfold build_label. rewrite Hq.
    assert (Hqb : forall s, In s q -> s < nst n).
    { apply (proj1 (proj2 Hds)) with (q := q). eapply nth_error_In; eauto. }
    destruct (succ_set_ok n q p Hw (Halpha p Hp) Hqb) as (m & u & Em & Eu & Hu).
    rewrite Em; simpl. rewrite Eu; simpl.
    destruct u as [|x u'].
    { exists st. split; auto. split; auto. exists rows, es, f.
      split; auto. split; auto. split; auto. split; auto. split; auto. split; auto. split; auto.
      split; auto. rewrite <- (app_nil_r es). apply row_app; auto. constructor; auto. constructor. }
    set (u := x :: u') in *. assert (Hune : u <> []) by discriminate. clearbody u.
    assert (Hfk : length f = k) by apply Hrows.
    assert (Hnf : nth_error (b_first st) k = Some (match es with [] => None | _ => Some (length (concat rows)) end)).
    { rewrite Hf, <- Hfk. apply nth_error_snoc. }
    assert (Hfirst : forall j,
      match (match es with [] => None | _ => Some (length (concat rows)) end) with
      | None => update_nth k (fun _ => Some (length (b_edges st))) (b_first st)
      | Some _ => b_first st
      end = f ++ [match es ++ [DEdge k p j] with [] => None | _ => Some (length (concat rows)) end]).
    { intros j. destruct es as [|e es].
      - simpl. rewrite Hf, <- Hfk, update_nth_snoc. rewrite He, app_nil_r. reflexivity.
      - simpl. rewrite Hf. reflexivity. }
    destruct (find_index (eqb u) (b_states st)) as [i|] eqn:Ei.
    - apply find_index_some in Ei as ((u0 & Hi & Eu0) & _). apply eqb_eq in Eu0; subst u0.
      rewrite Hnf. eexists. split; [reflexivity|]. split; [|simpl; lia].
      exists rows, (es ++ [DEdge k p i]), f. simpl.
      split; auto. split; auto. split; auto. split; auto. split; auto.
      split; [rewrite He, app_assoc; auto|]. split; auto. split; [|apply Hfirst].
      apply row_app; auto. eapply row_edge; eauto. constructor.
    - rewrite Hnf. eexists. split; [reflexivity|]. split; [|simpl; rewrite app_length; lia].
      rewrite find_index_none in Ei.
      assert (Hnin : ~ In u (b_states st)).
      { intros Hin. apply Ei in Hin. rewrite eqb_refl in Hin. discriminate. }
      exists rows, (es ++ [DEdge k p (length (b_states st))]), f. simpl.
      split; [|split; [|split; [|split; [|split; [|split; [|split; [|split]]]]]]].
      + rewrite Hm, app_length, <- app_assoc. simpl. do 2 f_equal.
        replace (length (b_states st) + 1 - S k) with (length (b_states st) - S k + 1) by lia.
        rewrite repeat_app. reflexivity.
      + rewrite app_length; lia.
      + destruct Hds as (D1 & D2 & D3). split; [apply NoDup_snoc; auto|]. split.
        * intros q0 Hq0. apply in_app_or in Hq0 as [Hq0|[<-|[]]]; auto.
          split; [apply Hu|split; [auto|apply Hu]].
        * rewrite nth_error_app1; auto. eapply nth_error_lt; eauto.
      + apply map_ok_snoc; auto. intros Hnil. rewrite Hnil in Hk. simpl in Hk. lia.
      + apply rows_ok_mono; auto.
      + rewrite He, app_assoc; auto.
      + rewrite nth_error_app1; auto; lia.
      + apply row_app; [apply row_mono; auto|]. eapply row_edge; eauto; [apply nth_error_snoc|constructor].
      + apply Hfirst.
  Qed.

  Lemma build_labels_ok c0 q k ps : forall done st, incl ps alphabet -> linv c0 q k done st ->
    exists st', foldM (build_label n k) ps st = Ok st' /\ linv c0 q k (done ++ ps) st'.
  Proof.
    induction ps as [|p ps IH]; intros done st Hi Hl; simpl.
    - exists st. rewrite app_nil_r; auto.
    - destruct (build_label_ok c0 q k done p st) as (st1 & E1 & L1 & _); auto.
      { apply Hi; left; auto. }
      rewrite E1; simpl. destruct (IH (done ++ [p]) st1) as (st' & E & L); auto.
      { intros x Hx; apply Hi; right; auto. }
      exists st'. split; auto. rewrite <- app_assoc in L. exact L.
  Qed.

  Lemma find_unmarked k m : find_index negb (repeat true k ++ repeat false m) =
    match m with O => None | S _ => Some k end.
  Proof.
    unfold find_index. assert (G : forall i, find_index_from negb (repeat true k ++ repeat false m) i =
      match m with O => None | S _ => Some (i + k) end).
    { induction k as [|k IH]; intros i; simpl.
      - destruct m; simpl; auto.
      - rewrite IH. destruct m; auto. f_equal; lia. }
    rewrite G. destruct m; auto.
  Qed.

  Lemma mark_next k m : update_nth k (fun _ => true) (repeat true k ++ repeat false (S m)) =
    true :: repeat true k ++ repeat false m.
  Proof. induction k as [|k IH]; simpl; auto. simpl in IH. rewrite IH. reflexivity. Qed.

  Lemma build_step_ok c0 st : binv c0 st ->
    match build_step n alphabet st with
    | inl st' => binv c0 st' /\ length (b_first st') = S (length (b_first st)) /\
                 length (b_first st) < length (b_states st)
    | inr r => r = Ok st /\ length (b_first st) = length (b_states st)
    end.
  Proof.
    intros (k & rows & Hm & Hk & Hds & Hmap & Hrows & He).
    assert (Hfk : length (b_first st) = k) by apply Hrows.
    unfold build_step. rewrite Hm, find_unmarked.
    destruct (length (b_states st) - k) as [|m] eqn:Hlen.
    - split; auto. lia.
    - destruct (nth_error (b_states st) k) as [q|] eqn:Hq.
      2:{ apply nth_error_None in Hq. lia. }
      set (st1 := BState _ _ _ _ _).
      assert (L : linv c0 q k [] st1).
      { exists rows, [], (b_first st). unfold st1; simpl.
        split; [|split; [lia|split; auto; split; auto; split; auto; split; [rewrite app_nil_r; auto|]]].
        - replace m with (length (b_states st) - S k) by lia. apply mark_next.
        - split; auto. split; [constructor|]. reflexivity. }
      destruct (build_labels_ok c0 q k alphabet [] st1 (incl_refl _) L) as (st' & E & L').
      rewrite E. simpl in L'.
      destruct L' as (rows' & es & f & Hm' & Hk' & Hds' & Hmap' & Hrows' & He' & Hq' & Hrow' & Hf').
      split; [|split; [|lia]].
      + exists (S k), (rows' ++ [es]). split; auto. split; auto. split; auto. split; auto. split.
        * destruct Hrows' as (R1 & R2 & R3 & R4). split; [rewrite app_length; simpl; lia|].
          split; [rewrite Hf', app_length; simpl; lia|]. split.
          -- intros t es' Ht. destruct (Nat.lt_ge_cases t (length rows')) as [Hlt|Hge].
             ++ rewrite nth_error_app1 in Ht by auto. auto.
             ++ assert (t = length rows') as ->.
                { apply nth_error_lt in Ht. rewrite app_length in Ht; simpl in Ht; lia. }
                rewrite nth_error_snoc in Ht. injection Ht as <-. rewrite R1. eauto.
          -- intros t es' Ht. rewrite Hf'. destruct (Nat.lt_ge_cases t (length rows')) as [Hlt|Hge].
             ++ rewrite nth_error_app1 in Ht by auto. rewrite nth_error_app1 by lia.
                rewrite (R4 t es' Ht). destruct es'; auto. do 2 f_equal.
                rewrite firstn_app. replace (t - length rows') with 0 by lia. simpl.
                rewrite app_nil_r; auto.
             ++ assert (t = length rows') as ->.
                { apply nth_error_lt in Ht. rewrite app_length in Ht; simpl in Ht; lia. }
                rewrite nth_error_snoc in Ht. injection Ht as <-.
                replace (length rows') with (length f) at 1 by lia. rewrite nth_error_snoc.
                rewrite firstn_app, Nat.sub_diag, firstn_all; simpl. rewrite app_nil_r; auto.
        * rewrite He', concat_app. simpl. rewrite app_nil_r; auto.
      + rewrite Hf', app_length. simpl. destruct Hrows' as (R1 & R2 & _). lia.
  Qed.

  (** What [build] returns. *)
  Definition dfa_ok (d : dfa) (ds : list (list nat)) : Prop :=
    (exists c0, states_ok c0 ds /\ ssorted c0 /\ forall t, In t c0 <-> eps_reach n START_IDX t) /\
    map_ok ds (dfa_to_nfa d) /\ d_accepting d = accepting_states n /\
    (length (d_first d) = length ds /\ forall e, In e (d_edges d) -> de_from e < length ds) /\
    forall t q, nth_error ds t = Some q -> exists es,
      row ds q t alphabet es /\
      d_edge_iter d t = Ok (match es with [] => None | _ => Some es end) /\
      es = filter (fun e => de_from e =? t) (d_edges d).

  Lemma mapM_firsts {A} (l : list A) : forall l0,
    mapM (fun i => match nth_error (l0 ++ l) i with Some f => Ok f | None => Panic PIndex end)
         (seq (length l0) (length l)) = Ok l.
  Proof.
    induction l as [|x l IH]; intros l0; simpl; auto.
    rewrite nth_error_app2, Nat.sub_diag by lia. simpl.
    specialize (IH (l0 ++ [x])). rewrite app_length in IH. simpl in IH.
    replace (length l0 + 1) with (S (length l0)) in IH by lia.
    rewrite <- app_assoc in IH. simpl in IH. rewrite IH. reflexivity.
  Qed.

  Lemma skipn_concat (rows : list (list dedge)) t :
    skipn (length (concat (firstn t rows))) (concat rows) = concat (skipn t rows).
  Proof.
    revert t; induction rows as [|r rows IH]; intros [|t]; simpl; auto.
    rewrite app_length, skipn_app. rewrite skipn_all2 by lia. simpl.
    replace (length r + length (concat (firstn t rows)) - length r) with (length (concat (firstn t rows))) by lia.
    apply IH.
  Qed.

  Lemma build_ok : exists d ds, build n alphabet = Ok d /\ dfa_ok d ds.
  Proof.
    unfold build.
    destruct (nfa_epsilon_closure_ok n [START_IDX]) as (c & Ec & Hnd & Hb & Hc); auto.
    { intros s [<-|[]]; auto. }
    rewrite Ec; simpl.
    set (c0 := set_of_list c).
    set (st0 := BState _ _ _ _ _).
    assert (Hc0 : forall t, In t c0 <-> eps_reach n START_IDX t).
    { intros t. unfold c0. rewrite set_of_list_In, Hc. split.
      - intros (s & [<-|[]] & Hr); auto.
      - intros Hr; exists START_IDX; simpl; auto. }
    assert (I0 : binv c0 st0).
    { exists 0, []. unfold st0; simpl. split; auto. split; [lia|]. split; [|split; [|split]].
      - split; [constructor; auto; constructor|]. split; [|reflexivity].
        intros q [<-|[]]. split; [apply set_of_list_sorted|]. split.
        + intros E. assert (In START_IDX c0) as Hin by (apply Hc0; constructor).
          rewrite E in Hin; destruct Hin.
        + intros s Hs. apply Hb. apply set_of_list_In; auto.
      - reflexivity.
      - split; auto. split; auto. split; intros [|t] es E; discriminate.
      - reflexivity. }
    assert (Hcount : forall st, binv c0 st -> length (b_states st) <= 2 ^ nst n).
    { intros st (k & rows & _ & _ & (Hds1 & Hds2 & _) & _).
      rewrite <- (seq_length (nst n) 0). apply ssorted_count; auto; [apply ssorted_seq|].
      intros l Hl. destruct (Hds2 l Hl) as (H1 & H2 & H3). split; auto.
      intros x Hx. apply in_seq. apply H3 in Hx. lia. }
    destruct (run_measure_nat (build_step n alphabet) (binv c0)
      (fun st => 2 ^ nst n - length (b_first st)) (S (length (states n))) st0) as (r & Er); auto.
    { intros s s' Hs Es. pose proof (build_step_ok c0 s Hs) as H. rewrite Es in H.
      destruct H as (H1 & H2 & H3). split; auto. pose proof (Hcount s Hs). rewrite H2. lia. }
    { unfold nst. simpl. pose proof (Nat.pow_nonzero 2 (length (states n))). lia. }
    pose proof (run_inv (build_step n alphabet) (binv c0)
      (fun r => exists st, r = Ok st /\ binv c0 st /\ length (b_first st) = length (b_states st))
      (S (length (states n))) st0) as Hr.
    rewrite Er in *. destruct Hr as (st & -> & Hinv & Hlen); auto.
    { intros s s' Hs Es. pose proof (build_step_ok c0 s Hs) as H. rewrite Es in H. apply H. }
    { intros s r' Hs Es. pose proof (build_step_ok c0 s Hs) as H. rewrite Es in H.
      destruct H as [-> H]. exists s; auto. }
    pose proof (mapM_firsts (b_first st) []) as HM. simpl in HM. change (run (build_step n alphabet) (S (length (states n))) st0 = inr (Ok st)) in Er.
    cbn [run] in Er. rewrite Er, <- Hlen, HM. simpl.
    eexists. exists (b_states st). split; [reflexivity|].
    destruct Hinv as (k & rows & Hm & Hk & Hds & Hmap & (R1 & R2 & R3 & R4) & He).
    split; [|split; [auto|split; [auto|split; [split; [auto|]|]]]]; simpl.
    { exists c0. split; auto. split; auto. apply set_of_list_sorted. }
    { intros e Hin. rewrite He in Hin. apply in_concat in Hin as (es & Hes & Hin).
      apply In_nth_error in Hes as (t & Ht). destruct (R3 t es Ht) as (q & Hq & Hr).
      rewrite (row_from _ _ _ _ _ _ Hr Hin). eapply nth_error_lt; eauto. }
    intros t q Hq.
    assert (Ht : t < length rows).
    { apply nth_error_lt in Hq. lia. }
    destruct (nth_error rows t) as [es|] eqn:Et; [|apply nth_error_None in Et; lia].
    destruct (R3 t es Et) as (q' & Hq' & Hrow). rewrite Hq in Hq'. injection Hq' as <-.
    assert (Hother : forall e es', (exists t', nth_error rows t' = Some es' /\ In e es' /\ t' <> t) -> de_from e <> t).
    { intros e es' (t' & Ht' & Hin & Hne). destruct (R3 t' es' Ht') as (q' & _ & Hrow').
      rewrite (row_from _ _ _ _ _ _ Hrow' Hin). auto. }
    exists es. split; auto. split.
    - unfold d_edge_iter. simpl. rewrite (R4 t es Et). destruct es as [|e0 es0]; auto.
      do 2 f_equal. rewrite He, skipn_concat.
      destruct (nth_error_split _ _ Et) as (r1 & r2 & Erows & Hlr).
      rewrite Erows, skipn_app, skipn_all2, <- Hlr, Nat.sub_diag by lia. simpl.
      change (e0 :: es0 ++ concat r2) with ((e0 :: es0) ++ concat r2).
      change (if de_from e0 =? length r1 then e0 :: take_while (fun e => de_from e =? length r1) (es0 ++ concat r2) else [])
        with (take_while (fun e => de_from e =? length r1) ((e0 :: es0) ++ concat r2)).
      apply take_while_all.
      + intros e Hin. rewrite Hlr. apply Nat.eqb_eq. eapply row_from; eauto.
      + intros e Hin. apply Nat.eqb_neq. rewrite Hlr. apply in_concat in Hin as (es' & Hes' & Hin).
        apply In_nth_error in Hes' as (i & Hi). apply (Hother e es').
        exists (length r1 + S i). split; [|split; [auto|lia]].
        rewrite Erows, nth_error_app2 by lia. replace (length r1 + S i - length r1) with (S i) by lia. auto.
    - rewrite He. destruct (nth_error_split _ _ Et) as (r1 & r2 & Erows & Hlr).
      rewrite Erows, concat_app. simpl. rewrite !filter_app.
      rewrite (filter_none _ (concat r1)), (filter_none _ (concat r2)), (filter_all _ es).
      + simpl. rewrite app_nil_r; auto.
      + intros e Hin. apply Nat.eqb_eq. eapply row_from; eauto.
      + intros e Hin. apply Nat.eqb_neq. apply in_concat in Hin as (es' & Hes' & Hin).
        apply In_nth_error in Hes' as (i & Hi). apply (Hother e es').
        exists (length r1 + S i). split; [|split; [auto|lia]].
        rewrite Erows, nth_error_app2 by lia. replace (length r1 + S i - length r1) with (S i) by lia. auto.
      + intros e Hin. apply Nat.eqb_neq. apply in_concat in Hin as (es' & Hes' & Hin).
        apply In_nth_error in Hes' as (i & Hi). apply (Hother e es').
        pose proof (nth_error_lt _ _ _ Hi). exists i. split; [|split; [auto|lia]].
        rewrite Erows, nth_error_app1 by lia. auto.
  Qed.
End Build.

(** ** What an alphabet must satisfy for the subset construction to be exact *)

Definition alpha_ok (labels alphabet : list rng) : Prop :=
  (forall p, In p alphabet -> (fst p < snd p)%N) /\
  (forall a b, In a alphabet -> In b alphabet -> a = b \/ forall c, ~ (inr_ a c /\ inr_ b c)) /\
  (forall p m c d, In p alphabet -> In m labels -> inr_ p c -> inr_ p d -> inr_ m c -> inr_ m d) /\
  (forall c, covered alphabet c <-> covered labels c).

Lemma takes_matches labels alphabet p m c : alpha_ok labels alphabet ->
  In p alphabet -> In m labels -> matches p c = true -> takes m p = matches m c.
Proof.
  intros (A1 & A2 & A3 & A4) Hp Hm Hc. apply matches_inr in Hc.
  pose proof (A1 p Hp) as Hne. unfold takes.
  destruct (matches m c) eqn:E.
  - apply matches_inr in E. apply andb_true_iff. split; apply matches_inr;
      apply (A3 p m c); auto; unfold inr_ in *; lia.
  - apply not_true_iff_false in E. rewrite matches_inr in E. apply not_true_iff_false.
    rewrite andb_true_iff, matches_inr. intros [H _]. apply E.
    apply (A3 p m (fst p)); auto; unfold inr_ in *; lia.
Qed.

Definition edge_labels (E : list edge) : list rng :=
  flat_map (fun e => match e_label e with Some m => [m] | None => [] end) E.

Lemma edge_labels_In E m : In m (edge_labels E) <-> exists s t, In (Edge s (Some m) t) E.
Proof.
  unfold edge_labels. rewrite in_flat_map. split.
  - intros ([s [l|] t] & He & Hl); simpl in Hl; [|destruct Hl].
    destruct Hl as [<-|[]]. eauto.
  - intros (s & t & He). exists (Edge s (Some m) t). split; simpl; auto.
Qed.

(** Following one edge of a DFA: the find of dfa.rs:115 and lex.rs:171-174. *)
Definition d_next (d : dfa) (s : nat) (c : N) : res (option nat) :=
  let* es := d_edge_iter d s in
  Ok match es with
     | None => None
     | Some es => option_map de_to (find (fun e => matches (de_label e) c) es)
     end.

(** The NFA states reached from [q] on one character. *)
Definition reach1 (n : nfa) (q : list nat) (c : N) (t : nat) : Prop :=
  exists s m v, In s q /\ In (Edge s (Some m) v) (edges n) /\ matches m c = true /\ eps_reach n v t.

Lemma reach1_step n (P : nat -> Prop) q w c t :
  (forall x, In x q <-> path (edges n) START_IDX w x) ->
  (reach1 n q c t <-> path (edges n) START_IDX (w ++ [c]) t).
Proof.
  intros Hq. split.
  - intros (s & m & v & Hs & He & Hm & Hr). apply Hq in Hs. eapply path_app; eauto.
    eapply path_chr; eauto.
  - intros Hp. apply path_snoc_split in Hp as (s & v & m & H1 & H2 & H3 & H4).
    exists s, m, v. rewrite Hq. auto.
Qed.

Section Track.
  Variable n : nfa.
  Variable alphabet : list rng.
  Variable d : dfa.
  Variable ds : list (list nat).
  Hypothesis Hok : dfa_ok n alphabet d ds.
  Hypothesis Halpha : alpha_ok (edge_labels (edges n)) alphabet.

  Lemma succ_reach1 q p c u : In p alphabet -> matches p c = true -> succ_set n q p u ->
    forall t, In t u <-> reach1 n q c t.
  Proof.
    intros Hp Hc (S1 & B1 & H1) t. rewrite H1. split; intros (s & m & v & Hs & He & Hm & Hr);
      exists s, m, v; (split; [auto|split; [auto|split; [|auto]]]).
    - rewrite <- (takes_matches _ _ p m c Halpha); auto. apply edge_labels_In; eauto.
    - rewrite (takes_matches _ _ p m c Halpha); auto. apply edge_labels_In; eauto.
  Qed.

  Lemma reach1_covered q c t : reach1 n q c t -> exists p, In p alphabet /\ matches p c = true.
  Proof.
    intros (s & m & v & Hs & He & Hm & Hr).
    destruct Halpha as (_ & _ & _ & A4). destruct (proj2 (A4 c)) as (p & Hp & Hc).
    - exists m. split; [apply edge_labels_In; eauto|apply matches_inr; auto].
    - exists p. split; auto. apply matches_inr; auto.
  Qed.

  Lemma row_find q t ps es c : incl ps alphabet ->
    row n ds q t ps es ->
    match find (fun e => matches (de_label e) c) es with
    | Some e => exists u, nth_error ds (de_to e) = Some u /\ u <> [] /\
                          forall x, In x u <-> reach1 n q c x
    | None => forall p x, In p ps -> matches p c = true -> ~ reach1 n q c x
    end.
  Proof.
    intros Hi Hr. induction Hr as [|p ps es Hs Hr IH|p ps es u j Hs Hu Hj Hr IH].
    - simpl. intros p x [].
    - assert (Hps : incl ps alphabet) by (intros x Hx; apply Hi; right; auto).
      specialize (IH Hps). destruct (find _ es); auto.
      intros p' x [<-|Hp'] Hm Hre; [|eapply IH; eauto].
      apply (succ_reach1 q p c [] (Hi p (or_introl eq_refl)) Hm Hs) in Hre. destruct Hre.
    - simpl.
      assert (Hps : incl ps alphabet) by (intros x Hx; apply Hi; right; auto).
      destruct (matches p c) eqn:Em; simpl.
      + exists u. split; auto. split; auto. apply (succ_reach1 q p c u); auto. apply Hi; left; auto.
      + specialize (IH Hps). destruct (find _ es); auto.
        intros p' x [<-|Hp'] Hm Hre; [congruence|eapply IH; eauto].
  Qed.

  Lemma d_next_ok t q c : nth_error ds t = Some q ->
    exists o, d_next d t c = Ok o /\
      match o with
      | Some t' => exists u, nth_error ds t' = Some u /\ u <> [] /\ forall x, In x u <-> reach1 n q c x
      | None => forall x, ~ reach1 n q c x
      end.
  Proof.
    intros Hq. destruct Hok as (_ & _ & _ & _ & Hrows). destruct (Hrows t q Hq) as (es & Hr & He & _).
    unfold d_next. rewrite He; simpl. eexists; split; [reflexivity|].
    pose proof (row_find q t alphabet es c (incl_refl _) Hr) as Hf.
    destruct es as [|e0 es0].
    - simpl in Hf. intros x Hx. destruct (reach1_covered _ _ _ Hx) as (p & Hp & Hc). eapply Hf; eauto.
    - destruct (find _ (e0 :: es0)) as [e|]; simpl; auto.
      intros x Hx. destruct (reach1_covered _ _ _ Hx) as (p & Hp & Hc). eapply Hf; eauto.
  Qed.
End Track.

(** The state after reading a word, following edges from the start state; [None] when stuck. *)
Fixpoint d_run (d : dfa) (s : nat) (w : list N) : res (option nat) :=
  match w with
  | [] => Ok (Some s)
  | c :: w' =>
      let* o := d_next d s c in
      match o with Some t => d_run d t w' | None => Ok None end
  end.

Lemma d_run_app d w1 : forall s w2,
  d_run d s (w1 ++ w2) = let* o := d_run d s w1 in
                         match o with Some t => d_run d t w2 | None => Ok None end.
Proof.
  induction w1 as [|c w1 IH]; intros s w2; simpl; auto.
  destruct (d_next d s c) as [[t|]|p|]; simpl; auto.
Qed.

Lemma path_prefix E s w1 w2 t : path E s (w1 ++ w2) t -> exists u, path E s w1 u /\ path E u w2 t.
Proof.
  revert w2 t. induction w1 as [|c w1 IH] using rev_ind; intros w2 t Hp.
  - exists s. split; auto. constructor.
  - rewrite <- app_assoc in Hp. apply IH in Hp as (u & H1 & H2). simpl in H2.
    remember (c :: w2) as w eqn:Ew. revert H1. clear IH. induction H2; intros H1; [discriminate| |].
    + apply IHpath; auto. rewrite <- (app_nil_r w1). eapply path_app; eauto. eapply path_eps; eauto. constructor.
    + injection Ew as -> ->. exists t. split; auto. eapply path_app; eauto. eapply path_chr; eauto. constructor.
Qed.

Lemma d_run_tracks n alphabet d ds :
  dfa_ok n alphabet d ds -> alpha_ok (edge_labels (edges n)) alphabet ->
  forall w, exists o, d_run d 0 w = Ok o /\
    match o with
    | Some t => exists q, nth_error ds t = Some q /\ q <> [] /\
                forall x, In x q <-> path (edges n) START_IDX w x
    | None => forall x, ~ path (edges n) START_IDX w x
    end.
Proof.
  intros Hok Ha w. induction w as [|c w IH] using rev_ind.
  - exists (Some 0). split; auto. destruct Hok as ((c0 & Hs & _ & Hc0) & _).
    destruct Hs as (_ & Hs2 & Hs3). exists c0. split; auto. split; [|apply Hc0].
    apply (Hs2 c0). eapply nth_error_In; eauto.
  - destruct IH as (o & Eo & Ho). rewrite d_run_app, Eo. simpl. destruct o as [t|].
    + destruct Ho as (q & Hq & Hqne & Hp).
      destruct (d_next_ok n alphabet d ds Hok Ha t q c Hq) as (o & En & Hn). rewrite En; simpl.
      destruct o as [t'|].
      * exists (Some t'). split; auto. destruct Hn as (u & Hu & Hune & Hx). exists u. split; auto. split; auto.
        intros x. rewrite Hx. apply reach1_step; auto. exact (fun _ => True).
      * exists None. split; auto. intros x Hx. apply (Hn x).
        apply (reach1_step n (fun _ => True) q w c x Hp). auto.
    + exists None. split; auto. intros x Hx. apply path_prefix in Hx as (u & Hu & _). eapply Ho; eauto.
Qed.

(** Lookups in the state map: every state except the start state. *)
Lemma map_ok_get ds m t : map_ok ds m ->
  map_get t m = match t with O => None | S _ => nth_error ds t end.
Proof.
  intros ->. destruct ds as [|d0 ds]; simpl.
  - destruct t; simpl; auto.
  - replace (length ds - 0) with (length ds) by lia.
    assert (G : forall (l : list (list nat)) a, map_get t (combine (seq a (length l)) l) =
       if a <=? t then nth_error l (t - a) else None).
    { induction l as [|x l IH]; intros a; simpl.
      - destruct (a <=? t); auto. destruct (t - a); auto.
      - unfold eqb. simpl. destruct (Nat.compare_spec t a) as [E|E|E].
        + subst. rewrite (proj2 (Nat.leb_le a a)), Nat.sub_diag by lia. auto.
        + rewrite IH. rewrite (proj2 (Nat.leb_gt (S a) t)), (proj2 (Nat.leb_gt a t)) by lia. auto.
        + rewrite IH. rewrite (proj2 (Nat.leb_le (S a) t)), (proj2 (Nat.leb_le a t)) by lia.
          replace (t - a) with (S (t - S a)) by lia. auto. }
    rewrite G. destruct t as [|t]; simpl; auto. f_equal; lia.
Qed.

(** ** [from_nfa] *)

Lemma nfa_labels_ok n : wf n -> exists ls, nfa_labels n = Ok ls /\
  forall m, In m ls <-> In m (edge_labels (edges n)).
Proof.
  intros Hw. unfold nfa_labels.
  assert (G : forall l ret, (forall i, In i l -> i < nst n) -> exists ls,
    foldM (fun ret i => let* es := edge_iter n i in
      Ok (ret ++ flat_map (fun e => match e_label e with Some m => [m] | None => [] end) es)) l ret = Ok ls /\
    forall m, In m ls <-> In m ret \/ exists s t, In s l /\ In (Edge s (Some m) t) (edges n)).
  { induction l as [|i l IH]; intros ret Hb; simpl.
    - exists ret. split; auto. intros m; split; auto. intros [H|(s & t & [] & _)]; auto.
    - rewrite (edge_iter_wf n i Hw) by (apply Hb; left; auto). simpl.
      match goal with |- context [foldM _ l ?r] => destruct (IH r) as (ls & E & Hls) end.
      { intros j Hj; apply Hb; right; auto. }
      exists ls. split; auto. intros m. rewrite Hls, in_app_iff.
      fold (edge_labels (filter (fun e => e_from e =? i) (edges n))). rewrite edge_labels_In. split.
      + intros [[H|(s & t & H)]|(s & t & H1 & H2)]; auto.
        * apply filter_In in H as [H Hf]. right. exists s, t. split; auto.
          simpl in Hf. apply Nat.eqb_eq in Hf. auto.
        * right. exists s, t; auto.
      + intros [H|(s & t & [<-|H1] & H2)]; auto.
        * left. right. exists i, t. apply filter_In. split; auto. simpl; apply Nat.eqb_refl.
        * right. eauto. }
  destruct (G (seq 0 (length (states n))) []) as (ls & E & Hls).
  { intros i Hi. apply in_seq in Hi. unfold nst; lia. }
  exists ls. split; auto. intros m. rewrite Hls, edge_labels_In. split.
  - intros [[]|(s & t & _ & H)]; eauto.
  - intros (s & t & H). right. exists s, t. split; auto. apply in_seq. apply (proj1 Hw) in H.
    unfold nst in H; simpl in H. lia.
Qed.

Lemma alpha_ok_ext ls ls' al : (forall m, In m ls <-> In m ls') -> alpha_ok ls al -> alpha_ok ls' al.
Proof.
  intros H (A1 & A2 & A3 & A4). split; auto. split; auto. split.
  - intros p m c d Hp Hm. apply A3; auto. apply H; auto.
  - intros c. rewrite A4. unfold covered. split; intros (r & Hr & Hc); exists r; split; auto; apply H; auto.
Qed.

(** [from_nfa] always returns, with one row per reachable set of states. *)
Lemma from_nfa_ok n : wf n -> START_IDX < nst n ->
  exists alphabet d ds, remove_overlap (set_of_list (edge_labels (edges n))) = Ok alphabet /\
    from_nfa n = Ok d /\ dfa_ok n alphabet d ds.
Proof.
  intros Hw Hs. unfold from_nfa. destruct (nfa_labels_ok n Hw) as (ls & El & Hls). rewrite El; simpl.
  assert (set_of_list ls = set_of_list (edge_labels (edges n))) as ->.
  { apply ssorted_ext; try apply set_of_list_sorted. intros x. rewrite !set_of_list_In. apply Hls. }
  destruct (remove_overlap_covered (set_of_list (edge_labels (edges n)))) as (al & Ea & Hne & Hc).
  rewrite Ea; simpl. destruct (build_ok n al Hw Hs) as (d & ds & Ed & Hd).
  { intros p Hp. apply Hne in Hp. lia. }
  exists al, d, ds. auto.
Qed.

(** Labels that are pairwise nested or disjoint. *)
Definition laminar (l : list rng) : Prop :=
  forall a b, In a l -> In b l -> nested_or_disjoint a b.

Lemma laminar_alpha_ok labels : laminar labels ->
  exists al, remove_overlap (set_of_list labels) = Ok al /\ alpha_ok labels al.
Proof.
  intros Hl. destruct (remove_overlap_covered (set_of_list labels)) as (al & Ea & Hne & Hc).
  destruct (remove_overlap_laminar (set_of_list labels)) as (al' & Ea' & Hpd & Href).
  { apply set_of_list_sorted. }
  { intros a b Ha Hb. rewrite set_of_list_In in Ha, Hb. auto. }
  rewrite Ea in Ea'. injection Ea' as <-.
  exists al. split; auto. split; auto. split; [|split].
  - clear - Hpd. induction al as [|x v IH]; intros a b Ha Hb; [destruct Ha|]. destruct Hpd as [Hd Hpd].
    assert (Hx : forall y, In y v -> forall c, ~ (inr_ x c /\ inr_ y c)).
    { intros y Hy c [H1 H2]. specialize (Hd y Hy). unfold disj in Hd. rewrite intersects_false in Hd. unfold inr_ in *. lia. }
    destruct Ha as [->|Ha], Hb as [->|Hb]; auto. right. intros c [H1 H2]. apply (Hx a Ha c). auto.
  - intros p m c e Hp Hm Hpc Hpe Hmc. assert (Hm' : In m (set_of_list labels)) by (apply set_of_list_In; auto).
    destruct (Href p m Hp Hm') as [H|H].
    + unfold disj in H. rewrite intersects_false in H. unfold inr_ in *. lia.
    + unfold sub in H. unfold inr_ in *. lia.
  - intros c. rewrite Hc. unfold covered. split; intros (r & Hr & Hrc); exists r; split; auto;
      apply set_of_list_In; auto.
Qed.

Lemma split_alpha_ok labels al : remove_overlap (set_of_list labels) = Ok al ->
  (forall r p c d, In r al -> In p labels -> inr_ r c -> inr_ r d -> inr_ p c -> inr_ p d) -> alpha_ok labels al.
Proof.
  intros E Hd. destruct (remove_overlap_covered (set_of_list labels)) as (al' & E' & Hne & Hc).
  rewrite E in E'. injection E' as <-. split; auto. split; [|split].
  - apply (refines_disjoint _ _ E). intros r p c d Hr Hp. apply (Hd r p c d Hr). rewrite set_of_list_In in Hp. exact Hp.
  - exact Hd.
  - intros c. rewrite Hc. unfold covered. split; intros (r & Hr & Hrc); exists r; split; auto; apply set_of_list_In; auto.
Qed.

(** ** Unconditional soundness: whatever the alphabet, DFA runs only reach NFA states the word
    can reach. *)

Lemma takes_sound m p c : takes m p = true -> matches p c = true -> matches m c = true.
Proof.
  unfold takes, matches. rewrite !andb_true_iff, !N.leb_le, !N.ltb_lt. lia.
Qed.

Lemma row_In n ds q t ps es e : row n ds q t ps es -> In e es ->
  exists u, In (de_label e) ps /\ succ_set n q (de_label e) u /\ u <> [] /\ nth_error ds (de_to e) = Some u.
Proof.
  induction 1 as [|p ps es Hs Hr IH|p ps es u j Hs Hu Hj Hr IH]; simpl; [tauto| |].
  - intros Hin. destruct (IH Hin) as (u & H1 & H2). exists u; auto.
  - intros [<-|Hin]; simpl.
    + exists u; auto.
    + destruct (IH Hin) as (u' & H1 & H2). exists u'; auto.
Qed.

Lemma d_next_sound n al d ds t q c : dfa_ok n al d ds -> nth_error ds t = Some q ->
  exists o, d_next d t c = Ok o /\
    match o with
    | Some t' => exists u, nth_error ds t' = Some u /\ u <> [] /\ forall x, In x u -> reach1 n q c x
    | None => True
    end.
Proof.
  intros (_ & _ & _ & _ & Hrows) Hq. destruct (Hrows t q Hq) as (es & Hr & He & _).
  unfold d_next. rewrite He; simpl. eexists; split; [reflexivity|].
  destruct es as [|e0 es0]; auto.
  destruct (find _ (e0 :: es0)) as [e|] eqn:Ef; simpl; auto.
  apply find_some in Ef as [Hin Hm]. destruct (row_In _ _ _ _ _ _ _ Hr Hin) as (u & _ & Hu & Hne & Hj).
  exists u. split; auto. split; auto. intros x Hx. destruct Hu as (_ & _ & Hu).
  apply Hu in Hx as (s & m & v & H1 & H2 & H3 & H4). exists s, m, v.
  split; auto. split; auto. split; auto. eapply takes_sound; eauto.
Qed.

Lemma d_run_sound n al d ds : dfa_ok n al d ds ->
  forall w, exists o, d_run d 0 w = Ok o /\
    match o with
    | Some t => exists q, nth_error ds t = Some q /\ q <> [] /\
                forall x, In x q -> path (edges n) START_IDX w x
    | None => True
    end.
Proof.
  intros Hok w. induction w as [|c w IH] using rev_ind.
  - exists (Some 0). split; auto. destruct Hok as ((c0 & Hs & _ & Hc0) & _).
    destruct Hs as (_ & Hs2 & Hs3). exists c0. split; auto. split; [|apply Hc0].
    apply (Hs2 c0). eapply nth_error_In; eauto.
  - destruct IH as (o & Eo & Ho). rewrite d_run_app, Eo. simpl. destruct o as [t|]; [|eauto].
    destruct Ho as (q & Hq & Hqne & Hp).
    destruct (d_next_sound n al d ds t q c Hok Hq) as (o & En & Hn). rewrite En; simpl.
    exists o. destruct o as [t'|]; simpl; auto. split; auto.
    destruct Hn as (u & Hu & Hune & Hx). exists u. split; auto. split; auto.
    intros x Hin. apply Hx in Hin as (s & m & v & H1 & H2 & H3 & H4).
    eapply path_app; [apply Hp; eauto|]. eapply path_chr; eauto.
Qed.

(** Nothing enters the start state again. *)
Lemma d_next_nonzero n al d ds t q c t' : dfa_ok n al d ds ->
  (forall e, In e (edges n) -> e_to e <> START_IDX) ->
  nth_error ds t = Some q -> d_next d t c = Ok (Some t') -> t' <> 0.
Proof.
  intros Hok Hno Hq En Et'. subst t'.
  destruct (d_next_sound n al d ds t q c Hok Hq) as (o & En' & Hn).
  rewrite En in En'. injection En' as <-. destruct Hn as (u & Hu & Hune & Hx).
  destruct Hok as ((c0 & Hs & _ & Hc0) & _). destruct Hs as (_ & _ & Hs3).
  rewrite Hs3 in Hu. injection Hu as <-.
  assert (Hin : In START_IDX c0) by (apply Hc0; constructor).
  apply Hx in Hin as (s & m & v & H1 & H2 & H3 & H4).
  assert (G : forall a w b, path (edges n) a w b -> a <> START_IDX -> b <> START_IDX).
  { induction 1; intros Ha; auto; apply IHpath; apply Hno in H; auto. }
  apply (G v [] START_IDX H4); auto. apply Hno in H2. auto.
Qed.

(** ** [simulate] *)

(** The [find] on a state's own edges is the first matching edge of the whole edge list. *)
Inductive follows (d : dfa) : nat -> list N -> nat -> Prop :=
| follows_nil s : follows d s [] s
| follows_cons s c w t l1 e l2 :
    d_edges d = l1 ++ e :: l2 -> de_from e = s -> matches (de_label e) c = true ->
    (forall e', In e' l1 -> de_from e' = s -> matches (de_label e') c = false) ->
    follows d (de_to e) w t -> follows d s (c :: w) t.

Definition stuck (d : dfa) (s : nat) (c : N) : Prop :=
  forall e, In e (d_edges d) -> de_from e = s -> matches (de_label e) c = false.

Lemma find_filter {A} (f g : A -> bool) l :
  match find f (filter g l) with
  | Some e => exists l1 l2, l = l1 ++ e :: l2 /\ g e = true /\ f e = true /\
                            forall x, In x l1 -> g x = true -> f x = false
  | None => forall x, In x l -> g x = true -> f x = false
  end.
Proof.
  induction l as [|a l IH]; simpl; [intros x []|].
  destruct (g a) eqn:Eg; simpl.
  - destruct (f a) eqn:Ef.
    + exists [], l. split; auto. split; auto. split; auto. intros x [].
    + destruct (find f (filter g l)) as [e|].
      * destruct IH as (l1 & l2 & -> & H1 & H2 & H3). exists (a :: l1), l2.
        split; auto. split; auto. split; auto. intros x [<-|Hx]; auto.
      * intros x [<-|Hx]; auto.
  - destruct (find f (filter g l)) as [e|].
    + destruct IH as (l1 & l2 & -> & H1 & H2 & H3). exists (a :: l1), l2.
      split; auto. split; auto. split; auto. intros x [<-|Hx]; auto. congruence.
    + intros x [<-|Hx]; auto. congruence.
Qed.

Lemma d_next_follows n al d ds t q c : dfa_ok n al d ds -> nth_error ds t = Some q ->
  match d_next d t c with
  | Ok (Some t') => (exists q', nth_error ds t' = Some q') /\
                    forall w u, follows d t' w u -> follows d t (c :: w) u
  | Ok None => stuck d t c
  | _ => False
  end.
Proof.
  intros Hok Hq. pose proof Hok as (_ & _ & _ & _ & Hrows).
  destruct (Hrows t q Hq) as (es & Hr & He & Hes).
  destruct (d_next_sound n al d ds t q c Hok Hq) as (o & En & Hn). rewrite En.
  unfold d_next in En. rewrite He in En; simpl in En. injection En as Eo.
  pose proof (find_filter (fun e => matches (de_label e) c) (fun e => de_from e =? t) (d_edges d)) as Hf.
  rewrite <- Hes in Hf. destruct es as [|e0 es0].
  - subst o. simpl in Hf. intros e Hin Hfr. apply Hf; auto. apply Nat.eqb_eq; auto.
  - destruct (find (fun e => matches (de_label e) c) (e0 :: es0)) as [e|]; simpl in Eo; subst o.
    + split; [destruct Hn as (u & Hu & _); eauto|].
      destruct Hf as (l1 & l2 & El & Hfr & Hm & Hmin). intros w u Hfo.
      eapply follows_cons; eauto. { apply Nat.eqb_eq; auto. }
      intros e' Hin Hfr'. apply Hmin; auto. apply Nat.eqb_eq; auto.
    + intros e Hin Hfr. apply Hf; auto. apply Nat.eqb_eq; auto.
Qed.

Lemma sim_loop_none d s k w : d_edge_iter d s = Ok None -> sim_loop d s k w = Ok (s, k).
Proof. intros E. induction w as [|c w IH]; simpl; auto. rewrite E. simpl. auto. Qed.

Lemma sim_loop_ok n al d ds : dfa_ok n al d ds ->
  (forall e, In e (edges n) -> e_to e <> START_IDX) ->
  forall w s q k, nth_error ds s = Some q ->
  exists w1 w2 t, w = w1 ++ w2 /\ follows d s w1 t /\
    (match w2 with [] => True | c :: _ => stuck d t c end) /\
    sim_loop d s k w = Ok (t, k + length w1) /\ (w1 <> [] -> t <> 0) /\
    exists q', nth_error ds t = Some q'.
Proof.
  intros Hok Hno w. induction w as [|c w IH]; intros s q k Hq.
  - exists [], [], s. split; auto. split; [constructor|]. split; auto.
    split; [simpl; rewrite Nat.add_0_r; auto|]. split; [congruence|eauto].
  - simpl. pose proof (d_next_follows n al d ds s q c Hok Hq) as Hf.
    pose proof (fun t' => d_next_nonzero n al d ds s q c t' Hok Hno Hq) as Hz.
    unfold d_next in Hf, Hz. pose proof (sim_loop_none d s) as Hnone.
    destruct (d_edge_iter d s) as [[es|]|p|] eqn:Ee; simpl in *; try contradiction.
    + destruct (find (fun e => matches (de_label e) c) es) as [e|]; simpl in *.
      * destruct Hf as [[q' Hq'] Hf].
        destruct (IH (de_to e) q' (S k) Hq') as (w1 & w2 & t & -> & Hfo & Hst & E & Hnz & Hqt).
        exists (c :: w1), w2, t. split; auto. split; [apply Hf; auto|]. split; auto.
        split; [rewrite E; f_equal; f_equal; simpl; lia|]. split; auto. intros _.
        destruct w1 as [|c1 w1]; [|apply Hnz; congruence].
        inversion Hfo; subst. eapply Hz; eauto.
      * exists [], (c :: w), s. split; auto. split; [constructor|]. split; auto.
        split; [simpl; rewrite Nat.add_0_r; auto|]. split; [congruence|eauto].
    + exists [], (c :: w), s. split; auto. split; [constructor|]. split; auto.
      split; [rewrite Hnone by auto; simpl; rewrite Nat.add_0_r; auto|]. split; [congruence|eauto].
Qed.

Lemma d_simulate_ok n al d ds w : dfa_ok n al d ds ->
  (forall e, In e (edges n) -> e_to e <> START_IDX) ->
  exists w1 w2 t, w = w1 ++ w2 /\ follows d 0 w1 t /\
    (match w2 with [] => True | c :: _ => stuck d t c end) /\
    d_simulate d w = Ok (match w1 with [] => None | _ => Some (length w1) end).
Proof.
  intros Hok Hno. pose proof Hok as ((c0 & (_ & _ & H0) & _) & Hmap & _).
  destruct (sim_loop_ok n al d ds Hok Hno w 0 c0 0 H0) as (w1 & w2 & t & Ew & Hf & Hst & E & Hnz & (q & Hq)).
  exists w1, w2, t. split; auto. split; auto. split; auto.
  unfold d_simulate. rewrite E; simpl. unfold map_mem. rewrite (map_ok_get ds _ t Hmap).
  destruct w1 as [|c w1].
  - inversion Hf; subst. reflexivity.
  - destruct t as [|t]; [exfalso; apply Hnz; congruence|]. rewrite Hq. reflexivity.
Qed.

(** ** [d_run] and [follows] are the same thing *)

Lemma first_unique {A} (P : A -> Prop) (l1 l2 l1' l2' : list A) e e' :
  l1 ++ e :: l2 = l1' ++ e' :: l2' -> P e -> P e' ->
  (forall x, In x l1 -> ~ P x) -> (forall x, In x l1' -> ~ P x) -> e = e'.
Proof.
  revert l1'; induction l1 as [|a l1 IH]; intros [|a' l1'] E He He' H1 H2; simpl in E; injection E as E0 E.
  - auto.
  - subst. exfalso. apply (H2 a'); simpl; auto.
  - subst. exfalso. apply (H1 e'); simpl; auto.
  - apply (IH l1'); simpl in *; auto.
Qed.

Lemma follows_det d s w t t' : follows d s w t -> follows d s w t' -> t = t'.
Proof.
  intros H1; revert t'. induction H1 as [s|s c w t l1 e l2 El Hf Hm Hmin H IH]; intros t' H2;
    inversion H2 as [|s' c' w' u l1' e' l2' El' Hf' Hm' Hmin' H']; subst; auto.
  assert (e = e') as <-.
  { rewrite El in El'.
    apply (first_unique (fun x => de_from x = de_from e /\ matches (de_label x) c = true)
             _ _ _ _ _ _ El'); auto.
    - intros x Hx [Hx1 Hx2]. rewrite Hmin in Hx2; auto; discriminate.
    - intros x Hx [Hx1 Hx2]. rewrite Hmin' in Hx2; auto; try congruence. }
  auto.
Qed.

Lemma d_run_follows n al d ds : dfa_ok n al d ds ->
  forall w s q, nth_error ds s = Some q ->
  match d_run d s w with
  | Ok (Some t) => follows d s w t
  | Ok None => forall t, ~ follows d s w t
  | _ => False
  end.
Proof.
  intros Hok w. induction w as [|c w IH]; intros s q Hq; simpl; [constructor|].
  pose proof (d_next_follows n al d ds s q c Hok Hq) as Hf.
  destruct (d_next d s c) as [[t|]|p|]; simpl; try contradiction.
  - destruct Hf as [[q' Hq'] Hf]. specialize (IH t q' Hq').
    destruct (d_run d t w) as [[u|]|p|] eqn:Er; auto.
    intros u Hu. inversion Hu as [|s' c' w' u' l1' e' l2' El' Hf' Hm' Hmin' H']; subst.
    apply (IH u).
    assert (E : de_to e' = t); [|rewrite <- E; auto].
    pose proof (Hf [] t (follows_nil d t)) as H1.
    assert (H2 : follows d (de_from e') [c] (de_to e')) by (econstructor; eauto; constructor).
    eapply follows_det; eauto.
  - intros u Hu. inversion Hu as [|s' c' w' u' l1' e' l2' El' Hf' Hm' Hmin' H']; subst.
    rewrite (Hf e') in Hm'; auto; [discriminate|]. rewrite El'. apply in_or_app; simpl; auto.
Qed.

Lemma follows_d_run n al d ds w t : dfa_ok n al d ds ->
  (follows d 0 w t <-> d_run d 0 w = Ok (Some t)).
Proof.
  intros Hok. pose proof Hok as ((c0 & (_ & _ & H0) & _) & _).
  pose proof (d_run_follows n al d ds Hok w 0 c0 H0) as H. split.
  - intros Hf. destruct (d_run d 0 w) as [[u|]|p|] eqn:E; try contradiction.
    + rewrite (follows_det _ _ _ _ _ Hf H); auto.
    + exfalso; eapply H; eauto.
  - intros E. rewrite E in H. auto.
Qed.

(** At most one edge of a state matches a character. *)
Lemma row_unique n al ds q t es e1 e2 c : NoDup ds ->
  row n ds q t al es -> In e1 es -> In e2 es ->
  matches (de_label e1) c = true -> matches (de_label e2) c = true -> alpha_ok (edge_labels (edges n)) al ->
  e1 = e2.
Proof.
  intros Hnd Hr H1 H2 M1 M2 (_ & Hd & _).
  assert (Hfrom : forall e, In e es -> de_from e = t).
  { clear - Hr. induction Hr; simpl; [tauto|auto|]. intros e [<-|He]; auto. }
  destruct (row_In _ _ _ _ _ _ _ Hr H1) as (u1 & L1 & (S1 & _ & U1) & _ & D1).
  destruct (row_In _ _ _ _ _ _ _ Hr H2) as (u2 & L2 & (S2 & _ & U2) & _ & D2).
  apply matches_inr in M1. apply matches_inr in M2.
  destruct (Hd _ _ L1 L2) as [E|Hx]; [|exfalso; apply (Hx c); auto].
  assert (u1 = u2) as ->.
  { apply ssorted_ext; auto. intros x. rewrite U1, U2, E. tauto. }
  assert (Et : de_to e1 = de_to e2) by (eapply NoDup_nth_error; eauto; [apply nth_error_Some; congruence|congruence]).
  pose proof (Hfrom _ H1). pose proof (Hfrom _ H2). destruct e1, e2; simpl in *; congruence.
Qed.

Lemma dfa_ok_edge n al d ds e : dfa_ok n al d ds -> In e (d_edges d) ->
  exists q es, nth_error ds (de_from e) = Some q /\ row n ds q (de_from e) al es /\ In e es.
Proof.
  intros (_ & _ & _ & (_ & Hb) & Hrows) Hin. specialize (Hb e Hin).
  destruct (nth_error ds (de_from e)) as [q|] eqn:Eq; [|apply nth_error_None in Eq; lia].
  destruct (Hrows _ _ Eq) as (es & Hr & _ & Hes). exists q, es. split; auto. split; auto.
  rewrite Hes. apply filter_In. split; auto. apply Nat.eqb_refl.
Qed.

(** Same statement with the alphabet of [from_nfa] supplied. *)
Lemma from_nfa_inv n d : wf n -> START_IDX < nst n -> from_nfa n = Ok d ->
  exists al ds, remove_overlap (set_of_list (edge_labels (edges n))) = Ok al /\ dfa_ok n al d ds.
Proof.
  intros Hw Hs E. destruct (from_nfa_ok n Hw Hs) as (al & d' & ds & Ea & E' & Hok).
  rewrite E in E'. injection E' as <-. eauto.
Qed.

Lemma from_nfa_tracks n d : wf n -> START_IDX < nst n ->
  (forall e, In e (edges n) -> e_to e <> START_IDX) ->
  (exists al, remove_overlap (set_of_list (edge_labels (edges n))) = Ok al /\
              alpha_ok (edge_labels (edges n)) al) ->
  from_nfa n = Ok d ->
  (forall w, (exists t, follows d 0 w t) <-> (exists x, path (edges n) START_IDX w x)) /\
  (forall w t, w <> [] -> follows d 0 w t -> exists q, map_get t (dfa_to_nfa d) = Some q /\
      forall x, In x q <-> path (edges n) START_IDX w x) /\
  (forall e1 e2 c, In e1 (d_edges d) -> In e2 (d_edges d) -> de_from e1 = de_from e2 ->
      matches (de_label e1) c = true -> matches (de_label e2) c = true -> e1 = e2).
Proof.
  intros Hw Hs Hno (al & Eal & Ha) E. destruct (from_nfa_inv n d Hw Hs E) as (al' & ds & Eal' & Hok).
  rewrite Eal in Eal'. injection Eal' as <-.
  pose proof (d_run_tracks n al d ds Hok Ha) as HT.
  split; [|split].
  - intros w. destruct (HT w) as (o & Eo & Ho). split.
    + intros (t & Ht). apply (follows_d_run n al d ds w t Hok) in Ht. rewrite Ht in Eo. injection Eo as <-.
      destruct Ho as (q & Hq & Hne & Hx). destruct q as [|x q]; [congruence|]. exists x. apply Hx. left; auto.
    + intros (x & Hx). destruct o as [t|]; [|exfalso; eapply Ho; eauto].
      exists t. apply (follows_d_run n al d ds w t Hok). auto.
  - intros w t Hne Hf. apply (follows_d_run n al d ds w t Hok) in Hf as Hr.
    destruct (HT w) as (o & Eo & Ho). rewrite Hr in Eo. injection Eo as <-.
    destruct Ho as (q & Hq & _ & Hx). exists q. split; auto.
    pose proof Hok as (_ & Hmap & _). rewrite (map_ok_get ds _ t Hmap).
    destruct t as [|t]; auto. exfalso.
    destruct (exists_last Hne) as (w' & c & ->). rewrite d_run_app in Hr.
    destruct (HT w') as (o & Eo & Ho). rewrite Eo in Hr. simpl in Hr. destruct o as [t|]; [|discriminate].
    destruct Ho as (q' & Hq' & _). destruct (d_next d t c) as [[t'|]|p|] eqn:En; simpl in Hr; try discriminate.
    injection Hr as ->. eapply (d_next_nonzero n al d ds t q' c 0); eauto.
  - intros e1 e2 c H1 H2 Hf M1 M2.
    destruct (dfa_ok_edge n al d ds e1 Hok H1) as (q & es & Hq & Hr & Hin1).
    destruct (dfa_ok_edge n al d ds e2 Hok H2) as (q2 & es2 & Hq2 & Hr2 & Hin2).
    pose proof Hok as (_ & _ & _ & _ & Hrows).
    destruct (Hrows _ _ Hq) as (es' & Hr' & _ & Hes').
    assert (In e1 es') by (rewrite Hes'; apply filter_In; split; auto; apply Nat.eqb_refl).
    assert (In e2 es') by (rewrite Hes'; apply filter_In; split; auto; rewrite Hf; apply Nat.eqb_refl).
    eapply row_unique; eauto. destruct Hok as ((c0 & (Hnd & _) & _) & _). exact Hnd.
Qed.

Lemma d_simulate_follows n d w : wf n -> START_IDX < nst n ->
  (forall e, In e (edges n) -> e_to e <> START_IDX) -> from_nfa n = Ok d ->
  exists w1 w2 t, w = w1 ++ w2 /\ follows d 0 w1 t /\
    (match w2 with [] => True | c :: _ => stuck d t c end) /\
    d_simulate d w = Ok (match w1 with [] => None | _ => Some (length w1) end).
Proof.
  intros Hw Hs Hno E. destruct (from_nfa_inv n d Hw Hs E) as (al & ds & _ & Hok).
  eapply d_simulate_ok; eauto.
Qed.

Lemma follows_app d s w1 w2 t : follows d s (w1 ++ w2) t -> exists u, follows d s w1 u /\ follows d u w2 t.
Proof.
  revert s; induction w1 as [|c w1 IH]; intros s H; simpl in H.
  - exists s. split; auto. constructor.
  - inversion H as [|s' c' w' u l1 e l2 El Hf Hm Hmin H']; subst. apply IH in H' as (v & H1 & H2).
    exists v. split; auto. econstructor; eauto.
Qed.

Lemma utf8_len1_pos c : 1 <= utf8_len1 c.
Proof. unfold utf8_len1. destruct (c <? 128)%N, (c <? 2048)%N, (c <? 65536)%N; lia. Qed.

Lemma utf8_len_ge w : length w <= utf8_len w.
Proof.
  induction w as [|c w IH]; simpl; auto. pose proof (utf8_len1_pos c). unfold utf8_len in *. simpl. lia.
Qed.

Lemma utf8_len_ascii w : utf8_len w = length w <-> Forall (fun c => (c < 128)%N) w.
Proof.
  induction w as [|c w IH]; simpl; [split; auto|].
  pose proof (utf8_len_ge w). unfold utf8_len in *. simpl. unfold utf8_len1 at 1.
  destruct (N.ltb_spec c 128).
  - split.
    + intros E. constructor; auto. apply IH. lia.
    + intros F. inversion F; subst. simpl. f_equal. apply IH; auto.
  - split.
    + destruct (c <? 2048)%N, (c <? 65536)%N; intros; lia.
    + intros F. inversion F; subst. lia.
Qed.

(** [test] accepts exactly the non-empty ASCII words along which the DFA has edges. *)
Lemma d_test_follows n d w : wf n -> START_IDX < nst n ->
  (forall e, In e (edges n) -> e_to e <> START_IDX) -> from_nfa n = Ok d ->
  exists b, d_test d w = Ok b /\
    (b = true <-> w <> [] /\ Forall (fun c => (c < 128)%N) w /\ exists t, follows d 0 w t).
Proof.
  intros Hw Hs Hno E. destruct (d_simulate_follows n d w Hw Hs Hno E) as (w1 & w2 & t & -> & Hf & Hst & Es).
  unfold d_test. rewrite Es; simpl. eexists; split; [reflexivity|].
  assert (Hstop : w2 <> [] -> forall u, ~ follows d 0 (w1 ++ w2) u).
  { intros Hne u Hu. apply follows_app in Hu as (v & H1 & H2).
    rewrite (follows_det _ _ _ _ _ H1 Hf) in H2. destruct w2 as [|c w2]; [congruence|].
    inversion H2 as [|s' c' w' u' l1 e l2 El Hfr Hm Hmin H']; subst.
    rewrite (Hst e) in Hm; auto; [discriminate|]. rewrite El. apply in_or_app; simpl; auto. }
  destruct w1 as [|c w1].
  - split; [discriminate|]. simpl. intros (Hne & _ & (u & Hu)). exfalso. apply (Hstop Hne u). auto.
  - rewrite Nat.eqb_eq. split.
    + intros El. assert (Hw2 : w2 = []).
      { destruct w2; auto. pose proof (utf8_len_ge ((c :: w1) ++ n0 :: w2)). rewrite <- El in H.
        rewrite app_length in H. simpl in H. lia. }
      subst w2. rewrite app_nil_r in *. split; [discriminate|]. split; [apply utf8_len_ascii; auto|]. eauto.
    + intros (_ & Ha & (u & Hu)). destruct w2 as [|c2 w2].
      * rewrite app_nil_r in *. symmetry. apply utf8_len_ascii; auto.
      * exfalso. eapply Hstop; eauto. discriminate.
Qed.
