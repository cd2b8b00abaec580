(** Which labels the NFA of a regex carries, and that every state of it can still reach the
    accepting state when the regex has no empty class or alternation. *)
From Verif Require Import Base Regex Nfa NfaProofs Dfa DfaProofs LexSpec.

(** ** Inversion of the construction *)

Definition coacc (E : list edge) (lo hi acc : nat) : Prop :=
  forall s, lo <= s < hi -> exists v, path E s v acc.

Lemma push_edge_inv n f l t n' : push_edge n f l t = Ok n' ->
  edges n' = edges n ++ [Edge f l t] /\ nst n' = nst n.
Proof.
  unfold push_edge. destruct (f <? length (states n)); [|discriminate]. intros E; injection E as <-.
  unfold nst; simpl. rewrite update_nth_length. auto.
Qed.

Lemma push_edge_if_inv b n f t n' : push_edge_if b n f t = Ok n' ->
  edges n' = edges n ++ (if b then [Edge f None t] else []) /\ nst n' = nst n.
Proof.
  unfold push_edge_if. destruct b; [apply push_edge_inv|].
  intros E; injection E as <-. rewrite app_nil_r; auto.
Qed.

Lemma push_targets_inv ts : forall n i n', push_targets n i ts = Ok n' ->
  exists ss, ts = map Some ss /\ edges n' = edges n ++ map (fun s => Edge i None s) ss /\ nst n' = nst n.
Proof.
  induction ts as [|t ts IH]; intros n i n' E; simpl in E.
  - injection E as <-. exists []. simpl. rewrite app_nil_r; auto.
  - destruct t as [t|]; simpl in E; [|discriminate].
    apply bind_ok in E as (n1 & E1 & E). apply push_edge_inv in E1 as [H1 H2].
    apply IH in E as (ss & -> & H3 & H4). exists (t :: ss). split; auto. split; [|lia].
    rewrite H3, H1, <- app_assoc. reflexivity.
Qed.

Lemma path_inclr E E' s w t : path E' s w t -> path (E ++ E') s w t.
Proof. apply path_incl. apply incl_appr, incl_refl. Qed.
Lemma path_incll E E' s w t : path E s w t -> path (E ++ E') s w t.
Proof. apply path_incl. apply incl_appl, incl_refl. Qed.

Lemma edge_labels_app E E' : edge_labels (E ++ E') = edge_labels E ++ edge_labels E'.
Proof. unfold edge_labels. apply flat_map_app. Qed.

Lemma edge_labels_eps i ss m : ~ In m (edge_labels (map (fun s => Edge i None s) ss)).
Proof. induction ss; simpl; auto. Qed.

Definition cpost (h : hir) (n : nfa) (acc : nat) (n' : nfa) (r : option nat) : Prop :=
  exists new, edges n' = edges n ++ new /\ nst n <= nst n' /\
    (forall m, In m (edge_labels new) <-> hir_label h m) /\
    (productive h -> coacc new (nst n) (nst n') acc) /\
    match r with Some s => nst n <= s < nst n' \/ s = acc | None => n' = n end.

Lemma compile_ranges_inv rs : forall n acc n' ts, compile_ranges n rs acc = Ok (n', ts) ->
  exists new, edges n' = edges n ++ new /\ nst n' = nst n + length rs /\
    (forall m, In m (edge_labels new) <-> In m rs) /\
    ((forall r, In r rs -> (fst r < snd r)%N) -> coacc new (nst n) (nst n') acc) /\
    ts = map Some (seq (nst n) (length rs)).
Proof.
  induction rs as [|r rs IH]; intros n acc n' ts E; simpl in E.
  - injection E as <- <-. exists []. rewrite app_nil_r. split; auto. split; [simpl; lia|].
    split; [reflexivity|]. split; auto. intros _ s Hs. lia.
  - apply bind_ok in E as ((n1 & t) & E1 & E). apply bind_ok in E as ((n2 & ts2) & E2 & E).
    injection E as <- <-. unfold compile_match in E1. apply bind_ok in E1 as (n1' & E1 & E3).
    injection E3 as <- <-. apply push_edge_inv in E1 as [H1 H2]. rewrite nst_push_state in H2. simpl in H1.
    apply IH in E2 as (new & H3 & H4 & H5 & H6 & ->).
    exists (Edge (nst n) (Some r) acc :: new). split; [rewrite H3, H1, <- app_assoc; reflexivity|].
    split; [simpl; lia|]. split; [|split].
    + simpl. intros m. rewrite H5. reflexivity.
    + intros Hr s Hs. destruct (Nat.eq_dec s (nst n)) as [->|].
      * exists [fst r]. eapply path_chr; [left; reflexivity| |constructor].
        unfold matches. specialize (Hr r (or_introl eq_refl)).
        apply andb_true_iff. rewrite N.leb_le, N.ltb_lt. lia.
      * destruct (H6 (fun r' H => Hr r' (or_intror H)) s) as [v Hv]; [lia|].
        exists v. revert Hv. apply path_incl. apply incl_tl, incl_refl.
    + simpl. rewrite H2. rewrite Nat.add_1_r. reflexivity.
Qed.

Lemma productive_sub x h : subterm x h -> productive h -> productive x.
Proof.
  intros Hs Hp y Hy. apply Hp. revert Hs. clear Hp. induction 1; eauto using subterm.
Qed.

Lemma hir_label_sub x h m : subterm x h -> hir_label x m -> hir_label h m.
Proof.
  intros Hs (y & Hy & Hm). exists y. split; auto. revert Hs. clear Hm. induction 1; eauto using subterm.
Qed.

Lemma label_rep k h m : hir_label (HRep k h) m <-> hir_label h m.
Proof.
  split; [|apply hir_label_sub; repeat constructor]. intros (x & Hx & Hm). inversion Hx; subst; [destruct Hm|exists x; auto].
Qed.
Lemma label_group h m : hir_label (HGroup h) m <-> hir_label h m.
Proof.
  split; [|apply hir_label_sub; repeat constructor]. intros (x & Hx & Hm). inversion Hx; subst; [destruct Hm|exists x; auto].
Qed.
Lemma label_concat hs m : hir_label (HConcat hs) m <-> exists h, In h hs /\ hir_label h m.
Proof.
  split.
  - intros (x & Hx & Hm). inversion Hx as [| | |x' h hs' Hh Hs|]; subst; [destruct Hm|]. exists h. split; auto. exists x; auto.
  - intros (h & Hh & Hm). revert Hm. apply hir_label_sub. eapply sub_concat; eauto. constructor.
Qed.
Lemma label_alt hs m : hir_label (HAlt hs) m <-> exists h, In h hs /\ hir_label h m.
Proof.
  split.
  - intros (x & Hx & Hm). inversion Hx as [| | | |x' h hs' Hh Hs]; subst; [destruct Hm|]. exists h. split; auto. exists x; auto.
  - intros (h & Hh & Hm). revert Hm. apply hir_label_sub. eapply sub_alt; eauto. constructor.
Qed.
Lemma label_lit c m : hir_label (HLit c) m <-> m = (c, (c + 1)%N).
Proof.
  split; [|intros ->; exists (HLit c); split; [constructor|auto]]. intros (x & Hx & Hm). inversion Hx; subst; auto.
Qed.
Lemma label_class rs m : hir_label (HClass rs) m <-> In m (map (fun r => (fst r, (snd r + 1)%N)) rs).
Proof.
  rewrite in_map_iff. split.
  - intros (x & Hx & Hm). inversion Hx; subst. destruct Hm as (lo & hi & H & ->). exists (lo, hi); auto.
  - intros ([lo hi] & <- & H). exists (HClass rs). split; [constructor|eauto].
Qed.
Lemma label_empty m : ~ hir_label HEmpty m.
Proof. intros (x & Hx & Hm). inversion Hx; subst. destruct Hm. Qed.

Lemma written_label h m : In m (written h) <-> hir_label h m.
Proof.
  induction h as [| c | rs | | | k h IH | h IH | hs IH | hs IH] using hir_ind'; cbn [written].
  - split; [intros []|apply label_empty].
  - rewrite label_lit. simpl. split; [intros [<-|[]]; auto|auto].
  - rewrite label_class. reflexivity.
  - split; [intros []|]. intros (x & Hx & Hm). inversion Hx; subst. destruct Hm.
  - split; [intros []|]. intros (x & Hx & Hm). inversion Hx; subst. destruct Hm.
  - rewrite label_rep. auto.
  - rewrite label_group. auto.
  - rewrite label_concat, in_flat_map. rewrite Forall_forall in IH. split; intros (h & Hh & Hm); exists h; split; auto; apply IH; auto.
  - rewrite label_alt, in_flat_map. rewrite Forall_forall in IH. split; intros (h & Hh & Hm); exists h; split; auto; apply IH; auto.
Qed.

Definition cspec (h : hir) : Prop := forall n acc n' r, compile h n acc = Ok (n', r) -> cpost h n acc n' r.

(** Sequences. *)
Lemma seqs_inv hs : Forall cspec hs -> forall n acc n' a, seqs compile n acc hs = Ok (n', a) ->
  exists new, edges n' = edges n ++ new /\ nst n <= nst n' /\
    (forall m, In m (edge_labels new) <-> exists h, In h hs /\ hir_label h m) /\
    ((forall h, In h hs -> productive h) -> coacc new (nst n) (nst n') acc) /\
    (nst n <= a < nst n' \/ a = acc).
Proof.
  induction 1 as [|h hs Hh HF IH]; intros n acc n' a E; simpl in E.
  - injection E as <- <-. exists []. rewrite app_nil_r. split; auto. split; auto. split; [intros m; split; [intros []|intros (h & [] & _)]|].
    split; auto. intros _ s Hs. lia.
  - apply bind_ok in E as ((n1 & a1) & E1 & E). apply bind_ok in E as ((n2 & r) & E2 & E).
    destruct r as [a2|]; simpl in E; [|discriminate]. injection E as <- <-.
    apply IH in E1 as (e1 & A1 & A2 & A3 & A4 & A5). apply Hh in E2 as (e2 & B1 & B2 & B3 & B4 & B5).
    exists (e1 ++ e2). split; [rewrite B1, A1, <- app_assoc; auto|]. split; [lia|]. split; [|split].
    + intros m. rewrite edge_labels_app, in_app_iff, A3, B3. split.
      * intros [(h' & Hin & Hl)|Hm]; [exists h'|exists h]; simpl; auto.
      * intros (h' & [<-|Hin] & Hl); eauto.
    + intros Hp. specialize (A4 (fun h' H => Hp h' (or_intror H))). specialize (B4 (Hp h (or_introl eq_refl))).
      intros s Hs. destruct (Nat.lt_ge_cases s (nst n1)).
      * destruct (A4 s) as [v Hv]; [lia|]. exists v. apply path_incll; auto.
      * destruct (B4 s) as [v Hv]; [lia|]. apply (path_inclr e1) in Hv.
        destruct A5 as [Ha| ->]; [|eauto].
        destruct (A4 a1 Ha) as [v2 Hv2]. exists (v ++ v2). eapply path_app; eauto. apply path_incll; auto.
    + destruct B5 as [?|B5]; [left; lia|]. subst. destruct A5 as [?|?]; [left; lia|auto].
Qed.

Lemma alts_inv hs f : Forall cspec hs -> forall n n' ts, alts (fun e m => compile e m f) hs n = Ok (n', ts) ->
  exists new, edges n' = edges n ++ new /\ nst n <= nst n' /\
    (forall m, In m (edge_labels new) <-> exists h, In h hs /\ hir_label h m) /\
    ((forall h, In h hs -> productive h) -> coacc new (nst n) (nst n') f) /\
    (forall s, In (Some s) ts -> nst n <= s < nst n' \/ s = f) /\ length ts = length hs.
Proof.
  induction 1 as [|h hs Hh HF IH]; intros n n' ts E; simpl in E.
  - injection E as <- <-. exists []. rewrite app_nil_r. split; auto. split; auto. split; [intros m; split; [intros []|intros (h & [] & _)]|].
    split; [intros _ s Hs; lia|]. split; auto. intros s [].
  - apply bind_ok in E as ((n1 & r) & E1 & E). apply bind_ok in E as ((n2 & ts2) & E2 & E).
    injection E as <- <-.
    apply Hh in E1 as (e1 & A1 & A2 & A3 & A4 & A5). apply IH in E2 as (e2 & B1 & B2 & B3 & B4 & B5 & B6).
    exists (e1 ++ e2). split; [rewrite B1, A1, <- app_assoc; auto|]. split; [lia|]. split; [|split; [|split]].
    + intros m. rewrite edge_labels_app, in_app_iff, A3, B3. split.
      * intros [Hm|(h' & Hin & Hl)]; [exists h|exists h']; simpl; auto.
      * intros (h' & [<-|Hin] & Hl); eauto.
    + intros Hp. specialize (B4 (fun h' H => Hp h' (or_intror H))). specialize (A4 (Hp h (or_introl eq_refl))).
      intros s Hs. destruct (Nat.lt_ge_cases s (nst n1)).
      * destruct (A4 s) as [v Hv]; [lia|]. exists v. apply path_incll; auto.
      * destruct (B4 s) as [v Hv]; [lia|]. exists v. apply path_inclr; auto.
    + intros s [->|Hs].
      * destruct A5 as [?|?]; [left; lia|auto].
      * apply B5 in Hs as [?|?]; [left; lia|auto].
    + simpl; auto.
Qed.

(** The wrapper around alternatives: [f -> acc], [i -> targets]. *)
Lemma coacc_alt E f acc ss hi : ss <> [] -> coacc E (f + 2) hi f ->
  (forall s, In s ss -> f + 2 <= s < hi \/ s = f) ->
  coacc (Edge f None acc :: E ++ map (fun s => Edge (f + 1) None s) ss) f hi acc.
Proof.
  intros Hne Hc Hss s Hs.
  set (E' := Edge f None acc :: E ++ map (fun s => Edge (f + 1) None s) ss).
  assert (Hf : path E' f [] acc) by (eapply path_eps; [left; reflexivity|constructor]).
  assert (Hin : forall x, f + 2 <= x < hi \/ x = f -> exists v, path E' x v acc).
  { intros x [Hx| ->]; [|eauto]. destruct (Hc x Hx) as [v Hv]. exists (v ++ []). eapply path_app; eauto.
    revert Hv. apply path_incl. intros e He. right. apply in_or_app; auto. }
  destruct (Nat.eq_dec s f) as [->|]; [eauto|]. destruct (Nat.eq_dec s (f + 1)) as [->|]; [|apply Hin; lia].
  destruct ss as [|x ss]; [congruence|]. destruct (Hin x (Hss x (or_introl eq_refl))) as [v Hv].
  exists v. eapply path_eps; eauto. right. apply in_or_app; right. left; auto.
Qed.

Lemma compile_inv h : cspec h.
Proof.
  induction h as [| c | rs | | | k h IH | h IH | hs IH | hs IH] using hir_ind'; intros n acc n' r E.
  - simpl in E. injection E as <- <-. exists []. rewrite app_nil_r. split; auto. split; auto.
    split; [intros m; split; [intros []|apply label_empty]|]. split; auto. intros _ s Hs. lia.
  - simpl in E. unfold compile_match in E. apply bind_ok in E as (n1 & E1 & E). injection E as <- <-.
    apply push_edge_inv in E1 as [H1 H2]. rewrite nst_push_state in H2. simpl in H1.
    exists [Edge (nst n) (Some (c, (c + 1)%N)) acc]. split; auto. split; [lia|]. split; [|split].
    + intros m. rewrite label_lit. simpl. split; [intros [<-|[]]; auto|auto].
    + intros _ s Hs. assert (s = nst n) as -> by lia. exists [c].
      eapply path_chr; [left; reflexivity| |constructor]. unfold matches; simpl.
      apply andb_true_iff. rewrite N.leb_le, N.ltb_lt. lia.
    + left. unfold nst in *. lia.
  - cbn [compile] in E. apply bind_ok in E as (n1 & E1 & E). apply bind_ok in E as ((n2 & ts) & E2 & E).
    apply bind_ok in E as (n3 & E3 & E). injection E as <- <-.
    apply push_edge_inv in E1 as [A1 A2]. rewrite nst_push_state in A2. simpl in A1.
    apply compile_ranges_inv in E2 as (new & B1 & B2 & B3 & B4 & ->). rewrite nst_push_state in *. simpl in B1.
    apply push_targets_inv in E3 as (ss & C1 & C2 & C3). rewrite map_length in *.
    assert (seq (nst n1 + 1) (length rs) = ss) as <-.
    { clear - C1. revert ss C1. induction (seq (nst n1 + 1) (length rs)) as [|a l IHl]; intros [|b ss] E; try discriminate; auto.
      simpl in E. injection E as -> E. f_equal; auto. }
    fold (nst n) (nst n1) in *.
    exists ([Edge (nst n) None acc] ++ new ++ map (fun s => Edge (nst n1) None s) (seq (nst n1 + 1) (length rs))).
    split; [rewrite C2, B1, A1, <- !app_assoc; auto|]. split; [lia|]. split; [|split].
    + intros m. rewrite label_class. simpl. rewrite edge_labels_app, in_app_iff, B3. split; auto.
      intros [Hm|Hm]; auto. exfalso. eapply edge_labels_eps; eauto.
    + intros Hp. destruct (Hp (HClass rs)) as [Hne Hr]; [constructor|].
      rewrite A2 in *. rewrite C3. replace (nst n + 1 + 1) with (nst n + 2) in * by lia.
      apply coacc_alt.
      * destruct rs; [congruence|discriminate].
      * apply B4. intros m Hm. apply in_map_iff in Hm as ([lo hi] & <- & Hin). simpl. specialize (Hr _ _ Hin). lia.
      * intros s Hs. apply in_seq in Hs. left. lia.
    + left. lia.
  - discriminate.
  - discriminate.
  - assert (Eq : (exists lo hi, k = RepRange lo hi) \/ compile (HRep k h) n acc =
      let* (n1, r) := compile h (push_state n) (nst n) in
      let* s_in := unwrap r in
      let* n2 := push_edge n1 (nst n) None acc in
      let* n3 := push_edge_if (rep_loops k) n2 (nst n) s_in in
      let* n4 := push_edge (push_state n3) (nst n3) None s_in in
      let* n5 := push_edge_if (rep_skips k) n4 (nst n3) acc in
      Ok (n5, Some (nst n3))) by (destruct k; eauto).
    destruct Eq as [(lo & hi & ->)|Eq]; [discriminate|]. rewrite Eq in E; clear Eq.
    apply bind_ok in E as ((n1 & r1) & E1 & E). destruct r1 as [s_in|]; simpl in E; [|discriminate].
    apply bind_ok in E as (n2 & E2 & E). apply bind_ok in E as (n3 & E3 & E).
    apply bind_ok in E as (n4 & E4 & E). apply bind_ok in E as (n5 & E5 & E). injection E as <- <-.
    apply IH in E1 as (new & A1 & A2 & A3 & A4 & A5). rewrite nst_push_state in *. simpl in A1.
    apply push_edge_inv in E2 as [B1 B2]. apply push_edge_if_inv in E3 as [C1 C2].
    apply push_edge_inv in E4 as [D1 D2]. rewrite nst_push_state in D2. simpl in D1.
    apply push_edge_if_inv in E5 as [F1 F2].
    exists (new ++ rep_edges k (nst n) (nst n3) acc s_in). split.
    { rewrite F1, D1, C1, B1, A1. unfold rep_edges. rewrite <- !app_assoc. reflexivity. }
    split; [lia|]. split; [|split].
    + intros m. rewrite label_rep, edge_labels_app, in_app_iff, A3. split; auto. intros [Hm|Hm]; auto.
      exfalso. unfold rep_edges in Hm. destruct (rep_loops k), (rep_skips k); simpl in Hm; auto.
    + intros Hp. specialize (A4 (productive_sub h _ (sub_rep _ k _ (sub_refl h)) Hp)).
      assert (Ho : path (new ++ rep_edges k (nst n) (nst n3) acc s_in) (nst n) [] acc).
      { eapply path_eps; [|constructor]. apply in_or_app; right; left; auto. }
      assert (Hin : forall x, nst n <= x < nst n1 -> exists v, path (new ++ rep_edges k (nst n) (nst n3) acc s_in) x v acc).
      { intros x Hx. destruct (Nat.eq_dec x (nst n)) as [->|]; [eauto|].
        destruct (A4 x) as [v Hv]; [lia|]. exists (v ++ []). eapply path_app; eauto. apply path_incll; auto. }
      intros s Hs. destruct (Nat.lt_ge_cases s (nst n1)); [apply Hin; lia|].
      assert (s = nst n3) as -> by lia.
      destruct (Hin s_in) as [v Hv]; [destruct A5; lia|]. exists v. eapply path_eps; eauto.
      apply in_or_app; right. unfold rep_edges. apply in_or_app; right. apply in_or_app; right. left; auto.
    + left. lia.
  - simpl in E. apply IH in E as (new & A1 & A2 & A3 & A4 & A5). exists new. split; auto. split; auto. split; [|split; auto].
    + intros m. rewrite label_group. auto.
    + intros Hp. apply A4. eapply productive_sub; eauto. constructor; constructor.
  - rewrite compile_concat_eq in E. apply bind_ok in E as ((n1 & a) & E1 & E). injection E as <- <-.
    apply (seqs_inv hs IH) in E1 as (new & A1 & A2 & A3 & A4 & A5). exists new. split; auto. split; auto. split; [|split; auto].
    + intros m. rewrite label_concat. auto.
    + intros Hp. apply A4. intros h Hh. eapply productive_sub; eauto. eapply sub_concat; eauto. constructor.
  - rewrite compile_alt_eq in E. apply bind_ok in E as (n1 & E1 & E). apply bind_ok in E as ((n2 & ts) & E2 & E).
    apply bind_ok in E as (n3 & E3 & E). injection E as <- <-.
    apply push_edge_inv in E1 as [A1 A2]. rewrite nst_push_state in A2. simpl in A1.
    apply (alts_inv hs _ IH) in E2 as (new & B1 & B2 & B3 & B4 & B5 & B6). rewrite nst_push_state in *. simpl in B1.
    apply push_targets_inv in E3 as (ss & -> & C2 & C3). rewrite map_length in B6.
    exists ([Edge (nst n) None acc] ++ new ++ map (fun s => Edge (nst n1) None s) ss).
    split; [rewrite C2, B1, A1, <- !app_assoc; auto|]. split; [lia|]. split; [|split].
    + intros m. rewrite label_alt. simpl. rewrite edge_labels_app, in_app_iff, B3. split; auto.
      intros [Hm|Hm]; auto. exfalso. eapply edge_labels_eps; eauto.
    + intros Hp. pose proof (Hp (HAlt hs) (sub_refl _)) as Hne. simpl in Hne.
      rewrite A2 in *. rewrite C3. replace (nst n + 1 + 1) with (nst n + 2) in * by lia.
      apply coacc_alt.
      * destruct hs; [congruence|destruct ss; discriminate].
      * apply B4. intros h Hh. eapply productive_sub; eauto. eapply sub_alt; eauto. constructor.
      * intros s Hs. apply B5. apply in_map; auto.
    + left. lia.
Qed.

Lemma from_regex_labels h n m : from_regex h = Ok n -> (In m (edge_labels (edges n)) <-> hir_label h m).
Proof.
  unfold from_regex. intros E. apply bind_ok in E as ((n1 & r) & E1 & E2).
  apply compile_inv in E1 as (new & A1 & A2 & A3 & A4 & A5). apply push_edge_inv in E2 as [B1 B2].
  rewrite B1, A1. simpl. rewrite edge_labels_app, in_app_iff, A3. split; auto. intros [H|[]]; auto.
Qed.

Lemma from_regex_coacc h n : from_regex h = Ok n -> productive h ->
  forall s, s < nst n -> exists v, path (edges n) s v FINAL_ACCEPT_IDX.
Proof.
  unfold from_regex. intros E Hp. apply bind_ok in E as ((n1 & r) & E1 & E2).
  apply compile_inv in E1 as (new & A1 & A2 & A3 & A4 & A5). apply push_edge_inv in E2 as [B1 B2].
  specialize (A4 Hp). change (nst nfa_init) with 2 in *. intros s Hs.
  assert (G : forall s, 1 <= s < nst n -> exists v, path (edges n) s v FINAL_ACCEPT_IDX).
  { intros x Hx. destruct (Nat.eq_dec x FINAL_ACCEPT_IDX) as [->|Hne]; [exists []; constructor|].
    destruct (A4 x) as [v Hv]; [unfold FINAL_ACCEPT_IDX in *; lia|]. exists v. rewrite B1, A1.
    simpl. apply path_incll; auto. }
  destruct (Nat.eq_dec s 0) as [->|]; [|apply G; lia].
  set (t := match r with Some s => s | None => FINAL_ACCEPT_IDX end) in *.
  destruct (G t) as [v Hv].
  { unfold t, FINAL_ACCEPT_IDX in *. destruct r; [destruct A5; lia|lia]. }
  exists v. eapply path_eps; eauto. rewrite B1. apply in_or_app; right; left; auto.
Qed.

(** A path from the start is the beginning of a word of the language. *)
Lemma from_regex_live h n w : from_regex h = Ok n -> productive h ->
  (exists t, path (edges n) START_IDX w t) <-> (exists v, Lang h (w ++ v)).
Proof.
  intros E Hp. pose proof (from_regex_post h) as H. rewrite E in H. destruct H as [_ H]. split.
  - intros (t & Ht).
    assert (Hb : t < nst n).
    { assert (Hs : START_IDX < nst n) by (pose proof (rn_size _ _ H); unfold START_IDX; lia).
      revert Hs. induction Ht; auto; intros _; apply IHHt; apply (rn_wf _ _ H) in H0; apply H0. }
    destruct (from_regex_coacc h n E Hp t Hb) as [v Hv]. exists v. apply (rn_lang _ _ H).
    eapply path_app; eauto.
  - intros (v & Hv). apply (rn_lang _ _ H) in Hv. apply path_prefix in Hv as (u & Hu & _). eauto.
Qed.
