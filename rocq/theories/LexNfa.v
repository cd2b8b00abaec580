(** The NFA the lexer is built from: one block per token definition behind a common start. *)
From Verif Require Import Base Regex Nfa NfaProofs Overlap OverlapProofs OverlapLaminar Dfa DfaProofs Lex.

(** ** Gluing a shifted NFA behind another one *)

Definition shift_edges (o : nat) (E : list edge) : list edge :=
  map (fun e => Edge (e_from e + o) (e_label e) (e_to e + o)) E.

(** Well-formed except for the targets of the edges. *)
Definition pwf (n : nfa) : Prop :=
  (forall e, In e (edges n) -> e_from e < nst n) /\
  (forall i st, nth_error (states n) i = Some st -> contig n i st).

Definition glue (t n : nfa) : nfa :=
  let n' := shift_nfa n (nst t) (length (edges t)) in
  NFA (edges t ++ edges n') (states t ++ states n').

Lemma shift_edges_In o E e : In e (shift_edges o E) <->
  exists e', In e' E /\ e = Edge (e_from e' + o) (e_label e') (e_to e' + o).
Proof. unfold shift_edges. rewrite in_map_iff. split; intros (x & H1 & H2); eauto. Qed.

Lemma nst_glue t n : nst (glue t n) = nst t + nst n.
Proof. unfold nst, glue; simpl. rewrite app_length, map_length; auto. Qed.

Lemma accs_glue t n : accs (glue t n) = accs t ++ accs n.
Proof. unfold accs, glue; simpl. rewrite map_app, map_map; auto. Qed.

Lemma edges_glue t n : edges (glue t n) = edges t ++ shift_edges (nst t) (edges n).
Proof. reflexivity. Qed.

Lemma glue_pwf t n : pwf t -> wf n -> pwf (glue t n).
Proof.
  intros [T1 T2] [N1 N2]. split.
  - intros e He. rewrite nst_glue. rewrite edges_glue in He. apply in_app_or in He as [He|He].
    + apply T1 in He. lia.
    + apply shift_edges_In in He as (e' & He & ->). apply N1 in He. simpl. lia.
  - intros i st Hst. simpl in Hst. destruct (Nat.lt_ge_cases i (nst t)) as [Hi|Hi].
    + rewrite nth_error_app1 in Hst by exact Hi. specialize (T2 i st Hst). unfold contig in *.
      rewrite edges_glue. destruct (first_edge st) as [k|].
      * destruct T2 as (pre & mid & post & E & Hl & Hm & H1 & H2).
        exists pre, mid, (post ++ shift_edges (nst t) (edges n)). split.
        { rewrite E, !app_assoc; auto. }
        split; auto. split; auto. split; auto.
        intros e He. rewrite app_assoc in He. apply in_app_or in He as [He|He]; auto.
        apply shift_edges_In in He as (e' & He & ->). simpl. lia.
      * intros e He. apply in_app_or in He as [He|He]; auto.
        apply shift_edges_In in He as (e' & He & ->). simpl. lia.
    + rewrite nth_error_app2 in Hst by exact Hi. fold (nst t) in Hst.
      rewrite nth_error_map in Hst.
      destruct (nth_error (states n) (i - nst t)) as [st'|] eqn:Es; [|discriminate].
      injection Hst as <-. specialize (N2 _ _ Es). unfold contig in *. rewrite edges_glue. simpl.
      destruct (first_edge st') as [k|]; simpl.
      * destruct N2 as (pre & mid & post & E & Hl & Hm & H1 & H2).
        exists (edges t ++ shift_edges (nst t) pre), (shift_edges (nst t) mid), (shift_edges (nst t) post).
        split. { rewrite E. unfold shift_edges. rewrite !map_app, !app_assoc; auto. }
        split. { unfold shift_edges. rewrite app_length, map_length. lia. }
        split. { destruct mid; [congruence|discriminate]. }
        split.
        -- intros e He. apply shift_edges_In in He as (e' & He & ->). simpl. rewrite (H1 _ He). lia.
        -- intros e He. rewrite <- app_assoc in He. apply in_app_or in He as [He|He].
           ++ apply T1 in He. lia.
           ++ assert (He' : In e (shift_edges (nst t) (pre ++ post))).
              { unfold shift_edges in *. rewrite map_app; auto. }
              apply shift_edges_In in He' as (e' & Hin & ->). simpl.
              specialize (H2 _ Hin). lia.
      * intros e He. apply in_app_or in He as [He|He].
        -- apply T1 in He. lia.
        -- apply shift_edges_In in He as (e' & Hin & ->). simpl. specialize (N2 _ Hin). lia.
Qed.

(** ** The blocks *)

Fixpoint blocks (so : nat) (ns : list nfa) : list (nat * nfa) :=
  match ns with
  | [] => []
  | n :: ns' => (so, n) :: blocks (so + nst n) ns'
  end.

Definition total (ns : list nfa) : nat := fold_right (fun n a => nst n + a) 0 ns.

Lemma blocks_length so ns : length (blocks so ns) = length ns.
Proof. revert so; induction ns; simpl; auto. Qed.

Lemma blocks_nth so ns i o n : nth_error (blocks so ns) i = Some (o, n) ->
  nth_error ns i = Some n /\ so <= o /\ o + nst n <= so + total ns.
Proof.
  revert so i; induction ns as [|m ns IH]; intros so [|i] E; simpl in *; try discriminate.
  - injection E as <- <-. split; auto. lia.
  - apply IH in E as (H1 & H2 & H3). split; auto. lia.
Qed.

Lemma blocks_nth_ex so ns i n : nth_error ns i = Some n -> exists o, nth_error (blocks so ns) i = Some (o, n).
Proof.
  revert so i; induction ns as [|m ns IH]; intros so [|i] E; simpl in *; try discriminate.
  - injection E as ->. eauto.
  - apply IH; auto.
Qed.

Lemma blocks_order so ns i j o n o' n' : nth_error (blocks so ns) i = Some (o, n) ->
  nth_error (blocks so ns) j = Some (o', n') -> i < j -> o + nst n <= o'.
Proof.
  revert so i j; induction ns as [|m ns IH]; intros so [|i] [|j] E1 E2 Hij; simpl in *; try discriminate; try lia.
  - injection E1 as <- <-. apply blocks_nth in E2. lia.
  - eapply IH; eauto. lia.
Qed.

Lemma fold_glue_edges ns : forall t, edges (fold_left glue ns t) =
  edges t ++ flat_map (fun b => shift_edges (fst b) (edges (snd b))) (blocks (nst t) ns).
Proof.
  induction ns as [|n ns IH]; intros t; simpl; [rewrite app_nil_r; auto|].
  rewrite IH, nst_glue, edges_glue, app_assoc. auto.
Qed.

Lemma fold_glue_nst ns : forall t, nst (fold_left glue ns t) = nst t + total ns.
Proof. induction ns as [|n ns IH]; intros t; simpl; [lia|]. rewrite IH, nst_glue. lia. Qed.

Lemma fold_glue_accs ns : forall t, accs (fold_left glue ns t) = accs t ++ flat_map accs ns.
Proof.
  induction ns as [|n ns IH]; intros t; simpl; [rewrite app_nil_r; auto|].
  rewrite IH, accs_glue, app_assoc. auto.
Qed.

Lemma fold_glue_pwf ns : forall t, pwf t -> Forall wf ns -> pwf (fold_left glue ns t).
Proof.
  induction ns as [|n ns IH]; intros t Ht HF; simpl; auto. inversion HF; subst.
  apply IH; auto. apply glue_pwf; auto.
Qed.

Lemma append_nfas_glue l : forall t tmap ns tm,
  from_tokens_loop (nst t) (length (edges t)) l tmap = (ns, tm) ->
  append_nfas t ns = fold_left glue (map snd l) t.
Proof.
  induction l as [|[td n] l IH]; intros t tmap ns tm E; cbn [from_tokens_loop] in E.
  - injection E as <- <-. reflexivity.
  - destruct (from_tokens_loop _ _ l _) as [ns' tm'] eqn:E'. injection E as <- <-.
    change (append_nfas (glue t n) ns' = fold_left glue (map snd l) (glue t n)).
    eapply (IH (glue t n) _ _ tm').
    rewrite nst_glue. unfold glue; simpl edges. rewrite app_length, map_length.
    simpl in E'. rewrite !map_length in E'. exact E'.
Qed.

(** ** The template *)

Lemma template_ok : forall lens so E,
  (E = [] \/ exists e, In e E) ->
  (forall e, In e E -> e_from e = 0) ->
  lex_template_loop (NFA E [State (match E with [] => None | _ => Some 0 end) false]) so lens =
  let E' := E ++ map (fun o => Edge 0 None o)
                     (fst (fold_left (fun a l => (fst a ++ [snd a], snd a + l)) lens ([], so))) in
  Ok (NFA E' [State (match E' with [] => None | _ => Some 0 end) false]).
Proof.
  assert (Hf : forall lens acc so,
    fst (fold_left (fun a l => (fst a ++ [snd a], snd a + l)) lens (acc, so)) =
    acc ++ fst (fold_left (fun a l => (fst a ++ [snd a], snd a + l)) lens ([], so))).
  { induction lens as [|l lens IH]; intros acc so; simpl; [rewrite app_nil_r; auto|].
    rewrite (IH (acc ++ [so])), (IH [so]), <- app_assoc. reflexivity. }
  induction lens as [|l lens IH]; intros so E H0 H1; cbn [lex_template_loop].
  - simpl. rewrite app_nil_r. auto.
  - unfold push_edge; simpl length. change (START_IDX <? 1) with true. cbn [bind].
    simpl. replace (match match E with [] => None | _ :: _ => Some 0 end with
                    | Some _ => State (match E with [] => None | _ :: _ => Some 0 end) false
                    | None => State (Some (length E)) false end)
      with (State (match E ++ [Edge START_IDX None so] with [] => None | _ => Some 0 end) false)
      by (destruct E; reflexivity).
    rewrite IH.
    + rewrite (Hf lens [so]). rewrite map_app, app_assoc. reflexivity.
    + right. exists (Edge START_IDX None so). apply in_or_app; right; left; auto.
    + intros e He. apply in_app_or in He as [He|[<-|[]]]; auto.
Qed.

Lemma fold_offs ns : forall so,
  fst (fold_left (fun a l => (fst a ++ [snd a], snd a + l)) (map nst ns) ([], so)) = map fst (blocks so ns).
Proof.
  assert (Hf : forall lens acc so,
    fst (fold_left (fun a l => (fst a ++ [snd a], snd a + l)) lens (acc, so)) =
    acc ++ fst (fold_left (fun a l => (fst a ++ [snd a], snd a + l)) lens ([], so))).
  { induction lens as [|l lens IH]; intros acc so; simpl; [rewrite app_nil_r; auto|].
    rewrite (IH (acc ++ [so])), (IH [so]), <- app_assoc. reflexivity. }
  induction ns as [|n ns IH]; intros so; simpl; auto.
  rewrite (Hf _ [so]), IH. reflexivity.
Qed.

Definition tmpl (ns : list nfa) : nfa :=
  let E := map (fun b => Edge 0 None (fst b)) (blocks 1 ns) in
  NFA E [State (match E with [] => None | _ => Some 0 end) false].

Lemma template_eq ns : lex_nfa_template (map nst ns) = Ok (tmpl ns).
Proof.
  unfold lex_nfa_template. rewrite (template_ok _ 1 []); auto.
  - simpl. rewrite fold_offs, map_map. reflexivity.
  - intros e [].
Qed.

Lemma tmpl_pwf ns : pwf (tmpl ns).
Proof.
  split.
  - intros e He. simpl in He. apply in_map_iff in He as (b & <- & _). unfold nst; simpl. lia.
  - intros [|i] st Hst; simpl in Hst; [|destruct i; discriminate].
    injection Hst as <-. unfold contig; simpl first_edge.
    destruct (map (fun b => Edge 0 None (fst b)) (blocks 1 ns)) as [|e E] eqn:Em.
    + unfold tmpl; simpl; rewrite Em. intros e [].
    + exists [], (e :: E), []. unfold tmpl; simpl edges; rewrite Em. rewrite app_nil_r. split; auto.
      split; auto. split; [discriminate|]. split; [|intros x []].
      rewrite <- Em. intros x Hx. apply in_map_iff in Hx as (b & <- & _). auto.
Qed.

(** ** The token map *)

Lemma accepting_states_accs n a : In a (accepting_states n) <-> nth_error (accs n) a = Some true.
Proof.
  unfold accepting_states, accs. rewrite filter_In, in_seq, nth_error_map.
  destruct (nth_error (states n) a) as [st|] eqn:E; simpl.
  - apply nth_error_lt in E. destruct (is_accept st); split; auto; try tauto; try (intros; split; auto; lia).
    + intros [_ H]; discriminate. + intros H; discriminate.
  - split; [intros [_ H]; discriminate|discriminate].
Qed.

Lemma accepting_states_one n k : accs n = [false; true] ++ repeat false k -> accepting_states n = [1].
Proof.
  intros E. apply ssorted_ext.
  - apply ssorted_filter, ssorted_seq.
  - simpl. split; auto. intros y [].
  - intros a. rewrite accepting_states_accs, E. destruct a as [|[|a]]; simpl.
    + split; [discriminate|lia].
    + split; auto.
    + split; [|lia]. intros H. exfalso. apply nth_error_In in H. apply repeat_spec in H. discriminate.
Qed.

Lemma tokens_map l : forall so eo tmap ns tm,
  (forall td n, In (td, n) l -> accepting_states n = [1] /\ 2 <= nst n) ->
  msorted tmap -> (forall k, In k (keys tmap) -> k < so) ->
  from_tokens_loop so eo l tmap = (ns, tm) ->
  msorted tm /\ (forall k, k < so -> map_get k tm = map_get k tmap) /\
  (forall i td n o m, nth_error l i = Some (td, n) -> nth_error (blocks so (map snd l)) i = Some (o, m) ->
     map_get (1 + o) tm = Some td).
Proof.
  induction l as [|[td n] l IH]; intros so eo tmap ns tm Hl Hs Hk E; cbn [from_tokens_loop] in E.
  - injection E as <- <-. split; auto. split; auto. intros [|i] ? ? ? ? H; discriminate.
  - destruct (Hl td n (or_introl eq_refl)) as [Ha Hn]. rewrite Ha in E. simpl fold_left in E.
    destruct (from_tokens_loop _ _ l _) as [ns' tm'] eqn:E'. injection E as <- <-.
    assert (Hk2 : forall k, In k (keys (map_insert (S so) td tmap)) ->
              k < so + length (states (shift_nfa n so eo))).
    { simpl. intros k Hk'. apply map_alter_keys in Hk'. rewrite map_length. fold (nst n).
      destruct Hk' as [->|Hk']; [lia|]. apply Hk in Hk'. lia. }
    destruct (IH _ _ _ _ _ (fun td n H => Hl td n (or_intror H)) (map_insert_sorted _ _ _ Hs) Hk2 E')
      as (I1 & I2 & I3).
    simpl in I2. rewrite map_length in I2. fold (nst n) in I2. split; auto. split.
    + intros k Hk'. rewrite I2 by lia. apply map_get_insert_other. lia.
    + intros [|i] td' n' o m H1 H2; simpl in H1, H2.
      * injection H1 as <- <-. injection H2 as <- <-.
        change (1 + so) with (S so) in *. rewrite I2 by lia. apply map_get_insert_same; auto.
      * simpl states in I3. rewrite map_length in I3. eapply I3; eauto.
Qed.

(** ** The assembled NFA *)

Lemma path_shift E o s w t : path (shift_edges o E) (s + o) w t <-> exists t', t = t' + o /\ path E s w t'.
Proof.
  split.
  - intros H. remember (s + o) as x eqn:Ex. revert s Ex. induction H; intros s0 Ex; subst.
    + exists s0; split; auto. constructor.
    + apply shift_edges_In in H as ([f l' g] & He & Ee). simpl in Ee. injection Ee as Ef <- ->.
      assert (s0 = f) as <- by lia. destruct (IHpath g eq_refl) as (t' & -> & Hp). exists t'; split; auto.
      eapply path_eps; eauto.
    + apply shift_edges_In in H as ([f l' g] & He & Ee). simpl in Ee. injection Ee as Ef <- ->.
      assert (s0 = f) as <- by lia. destruct (IHpath g eq_refl) as (t' & -> & Hp). exists t'; split; auto.
      eapply path_chr; eauto.
  - intros (t' & -> & Hp). induction Hp; [constructor|..].
    + eapply path_eps; eauto. apply shift_edges_In. exists (Edge s None t); auto.
    + eapply path_chr; eauto. apply shift_edges_In. exists (Edge s (Some m) t); auto.
Qed.

Section Assembled.
  Variable ns : list nfa.
  Hypothesis Hwf : Forall wf ns.
  Hypothesis Hsz : Forall (fun n => 2 <= nst n) ns.
  Hypothesis Hno : Forall (fun n => forall e, In e (edges n) -> e_to e <> START_IDX) ns.
  Hypothesis Hac : Forall (fun n => exists k, accs n = [false; true] ++ repeat false k) ns.
  Let bs := blocks 1 ns.
  Let Nf := fold_left glue ns (tmpl ns).

  Lemma asm_edges e : In e (edges Nf) <->
    (exists i o n, nth_error bs i = Some (o, n) /\ e = Edge 0 None o) \/
    (exists i o n, nth_error bs i = Some (o, n) /\ In e (shift_edges o (edges n))).
  Proof.
    unfold Nf. rewrite fold_glue_edges, in_app_iff. change (nst (tmpl ns)) with 1. fold bs.
    simpl edges. fold bs. rewrite in_map_iff, in_flat_map. split.
    - intros [([o n] & <- & Hb)|([o n] & Hb & He)]; apply In_nth_error in Hb as [i Hi]; [left|right]; eauto.
    - intros [(i & o & n & Hi & ->)|(i & o & n & Hi & He)]; apply nth_error_In in Hi;
        [left|right]; exists (o, n); auto.
  Qed.

  Lemma blk i o n : nth_error bs i = Some (o, n) ->
    nth_error ns i = Some n /\ wf n /\ 2 <= nst n /\ (forall e, In e (edges n) -> e_to e <> START_IDX) /\
    1 <= o /\ o + nst n <= 1 + total ns.
  Proof.
    intros H. apply blocks_nth in H as (H1 & H2 & H3). split; auto.
    rewrite Forall_forall in Hwf, Hsz, Hno. apply nth_error_In in H1.
    split; [auto|]. split; [auto|]. split; [exact (Hno n H1)|]. split; lia.
  Qed.

  Lemma asm_wf : wf Nf.
  Proof.
    destruct (fold_glue_pwf ns (tmpl ns) (tmpl_pwf ns) Hwf) as [H1 H2]. fold Nf in H1, H2.
    split; auto. intros e He. split; auto.
    unfold Nf. rewrite fold_glue_nst. change (nst (tmpl ns)) with 1.
    apply asm_edges in He as [(i & o & n & Hi & ->)|(i & o & n & Hi & He)]; apply blk in Hi as (_ & Hw & Hn & _ & Ho & Hle).
    - simpl. lia.
    - apply shift_edges_In in He as (e' & He & ->). simpl. apply Hw in He. lia.
  Qed.

  Lemma asm_start : START_IDX < nst Nf.
  Proof. unfold Nf. rewrite fold_glue_nst. unfold START_IDX. simpl. lia. Qed.

  Lemma asm_no_in e : In e (edges Nf) -> e_to e <> START_IDX.
  Proof.
    intros He. apply asm_edges in He as [(i & o & n & Hi & ->)|(i & o & n & Hi & He)]; apply blk in Hi as (_ & Hw & Hn & Hs & Ho & Hle).
    - unfold START_IDX; simpl. lia.
    - apply shift_edges_In in He as (e' & He & ->). unfold START_IDX; simpl. lia.
  Qed.

  Lemma asm_block_edge i o n e : nth_error bs i = Some (o, n) -> In e (edges Nf) ->
    o <= e_from e < o + nst n -> In e (shift_edges o (edges n)) /\ o <= e_to e < o + nst n.
  Proof.
    intros Hi He Hr. pose proof (blk _ _ _ Hi) as (_ & Hw & Hn & Hs & Ho & Hle).
    apply asm_edges in He as [(j & o' & n' & Hj & ->)|(j & o' & n' & Hj & He)].
    - simpl in Hr. lia.
    - pose proof (blk _ _ _ Hj) as (_ & Hw' & _).
      assert (Hin : In e (shift_edges o (edges n))).
      { destruct (Nat.lt_trichotomy i j) as [Hc|[Hc|Hc]].
        - exfalso. pose proof (blocks_order _ _ _ _ _ _ _ _ Hi Hj Hc).
          apply shift_edges_In in He as (e' & He & ->). simpl in Hr. lia.
        - subst. congruence.
        - exfalso. pose proof (blocks_order _ _ _ _ _ _ _ _ Hj Hi Hc).
          apply shift_edges_In in He as (e' & He & ->). apply Hw' in He. simpl in Hr. lia. }
      split; auto. apply shift_edges_In in Hin as (e' & He' & ->). apply Hw in He'. simpl. lia.
  Qed.

  Lemma asm_path_block i o n s w t : nth_error bs i = Some (o, n) -> s < nst n ->
    (path (edges Nf) (s + o) w t <-> exists t', t = t' + o /\ path (edges n) s w t').
  Proof.
    intros Hi Hs. rewrite <- path_shift. split.
    - apply (path_restrict (fun x => o <= x < o + nst n)); [|lia].
      intros e He Hr. eapply asm_block_edge; eauto.
    - apply path_incl. intros e He. apply asm_edges. right. eauto.
  Qed.

  (** A state other than the start is reached exactly as in its own block. *)
  Lemma asm_path w t : path (edges Nf) START_IDX w t <->
    (w = [] /\ t = START_IDX) \/
    exists i o n t', nth_error bs i = Some (o, n) /\ t = t' + o /\ path (edges n) START_IDX w t'.
  Proof.
    split.
    - intros Hp. apply path_inv in Hp as [(-> & ->)|[(u & He & Hp)|(m & u & c & w' & -> & He & _)]]; auto.
      + right. apply asm_edges in He as [(i & o & n & Hi & E)|(i & o & n & Hi & E)].
        * injection E as ->. pose proof (blk _ _ _ Hi) as (_ & _ & Hn & _).
          change o with (0 + o) in Hp. apply (asm_path_block _ _ _ _ _ _ Hi) in Hp as (t' & -> & Hp); [|lia].
          exists i, o, n, t'. auto.
        * exfalso. apply blk in Hi as (_ & _ & _ & _ & Ho & _).
          apply shift_edges_In in E as (e' & _ & E). injection E as E _ _. unfold START_IDX in E. lia.
      + exfalso. apply asm_edges in He as [(i & o & n & Hi & E)|(i & o & n & Hi & E)]; [discriminate|].
        apply blk in Hi as (_ & _ & _ & _ & Ho & _).
        apply shift_edges_In in E as (e' & _ & E). injection E as E _ _. unfold START_IDX in E. lia.
    - intros [(-> & ->)|(i & o & n & t' & Hi & -> & Hp)]; [constructor|].
      eapply path_eps; [apply asm_edges; left; eauto|].
      pose proof (blk _ _ _ Hi) as (_ & _ & Hn & _).
      change o with (0 + o) at 1. apply (asm_path_block _ _ _ _ _ _ Hi); [lia|]. eauto.
  Qed.

  Lemma path_bound n s w t : wf n -> s < nst n -> path (edges n) s w t -> t < nst n.
  Proof. intros Hw Hs Hp. revert Hs. induction Hp; intros; auto; apply IHHp; apply Hw in H; apply H. Qed.

  Lemma asm_accepting_path i o n w : nth_error bs i = Some (o, n) ->
    (path (edges Nf) START_IDX w (1 + o) <-> path (edges n) START_IDX w FINAL_ACCEPT_IDX).
  Proof.
    intros Hi. rewrite asm_path. split.
    - intros [(_ & E)|(j & o' & n' & t' & Hj & E & Hp)]; [unfold START_IDX in E; lia|].
      pose proof (blk _ _ _ Hi) as (_ & Hw & Hn & _). pose proof (blk _ _ _ Hj) as (_ & Hw' & Hn' & _).
      assert (Hb : t' < nst n') by (eapply (path_bound n' START_IDX); eauto; unfold START_IDX; lia).
      destruct (Nat.lt_trichotomy i j) as [Hc|[Hc|Hc]].
      + pose proof (blocks_order _ _ _ _ _ _ _ _ Hi Hj Hc). lia.
      + subst j. rewrite Hi in Hj. injection Hj as <- <-. unfold FINAL_ACCEPT_IDX. replace 1 with t' by lia. auto.
      + pose proof (blocks_order _ _ _ _ _ _ _ _ Hj Hi Hc). lia.
    - intros Hp. right. exists i, o, n, FINAL_ACCEPT_IDX. auto.
  Qed.

  Lemma asm_accepting a : In a (accepting_states Nf) <-> exists i o n, nth_error bs i = Some (o, n) /\ a = 1 + o.
  Proof.
    rewrite accepting_states_accs. unfold Nf. rewrite fold_glue_accs. simpl app. unfold bs.
    destruct a as [|a]; simpl.
    { split; [discriminate|]. intros (i & o & n & Hi & E). apply blocks_nth in Hi. lia. }
    assert (G : forall l so a, Forall (fun n => exists k, accs n = [false; true] ++ repeat false k) l ->
      (nth_error (flat_map accs l) a = Some true <->
       exists i o n, nth_error (blocks so l) i = Some (o, n) /\ a + so = 1 + o)).
    { clear. induction l as [|n l IH]; intros so a HF; simpl.
      - split; [destruct a; discriminate|]. intros ([|i] & o & n & H & _); discriminate.
      - inversion HF as [|? ? [k Hk] HF']; subst.
        destruct (Nat.lt_ge_cases a (nst n)) as [Ha|Ha].
        + rewrite nth_error_app1 by (rewrite <- nst_accs; auto). rewrite Hk. split.
          * intros E. destruct a as [|[|a]]; simpl in E; try discriminate.
            -- exists 0, so, n. auto.
            -- apply nth_error_In, repeat_spec in E. discriminate.
          * intros ([|i] & o & m & Hi & E); simpl in Hi.
            -- injection Hi as <- <-. assert (a = 1) as -> by lia. reflexivity.
            -- apply blocks_nth in Hi. lia.
        + rewrite nth_error_app2 by (rewrite <- nst_accs; auto). rewrite <- nst_accs.
          rewrite (IH (so + nst n)) by auto. split.
          * intros (i & o & m & Hi & E). exists (S i), o, m. split; auto. lia.
          * intros ([|i] & o & m & Hi & E); simpl in Hi.
            -- injection Hi as <- <-. assert (nst n = 2 + k) by (rewrite nst_accs, Hk, app_length, repeat_length; auto). lia.
            -- exists i, o, m. split; auto. lia. }
    rewrite (G ns 1 a Hac). split; intros (i & o & n & Hi & E); exists i, o, n; split; auto; lia.
  Qed.

  Lemma asm_labels m : In m (edge_labels (edges Nf)) <-> exists n, In n ns /\ In m (edge_labels (edges n)).
  Proof.
    rewrite edge_labels_In. split.
    - intros (s & t & He). apply asm_edges in He as [(i & o & n & Hi & E)|(i & o & n & Hi & E)]; [discriminate|].
      exists n. split; [apply blk in Hi as (Hi & _); eapply nth_error_In; eauto|].
      apply shift_edges_In in E as ([f l g] & He & E). simpl in E. injection E as -> <- ->.
      apply edge_labels_In; eauto.
    - intros (n & Hn & Hm). apply edge_labels_In in Hm as (s & t & He).
      apply In_nth_error in Hn as [i Hi]. destruct (blocks_nth_ex 1 ns i n Hi) as [o Ho].
      exists (s + o), (t + o). apply asm_edges. right. exists i, o, n. split; auto.
      apply shift_edges_In. exists (Edge s (Some m) t); auto.
  Qed.
End Assembled.

(** ** [lex_nfa] *)

Lemma mapM_Forall2 {A B} (f : A -> res B) l : forall r, mapM f l = Ok r <-> Forall2 (fun a b => f a = Ok b) l r.
Proof.
  induction l as [|a l IH]; intros r; simpl.
  - split; [intros E; injection E as <-; constructor|intros H; inversion H; auto].
  - split.
    + intros E. destruct (f a) as [b|p|] eqn:Ea; simpl in E; try discriminate.
      destruct (mapM f l) as [bs|p|] eqn:El; simpl in E; try discriminate. injection E as <-.
      constructor; auto. apply IH; auto.
    + intros H; inversion H as [|? b ? bs Ha Hl]; subst. rewrite Ha. simpl. apply IH in Hl. rewrite Hl. reflexivity.
Qed.

Lemma from_regex_inv h n : from_regex h = Ok n -> regex_nfa h n.
Proof. intros E. pose proof (from_regex_post h) as H. rewrite E in H. apply H. Qed.

Lemma Forall2_nth_l {A B} (P : A -> B -> Prop) l r i a : Forall2 P l r -> nth_error l i = Some a ->
  exists b, nth_error r i = Some b /\ P a b.
Proof.
  intros H; revert i; induction H; intros [|i] E; simpl in *; try discriminate.
  - injection E as <-. eauto. - eauto.
Qed.

Lemma Forall2_nth_r {A B} (P : A -> B -> Prop) l r i b : Forall2 P l r -> nth_error r i = Some b ->
  exists a, nth_error l i = Some a /\ P a b.
Proof.
  intros H; revert i; induction H; intros [|i] E; simpl in *; try discriminate.
  - injection E as <-. eauto. - eauto.
Qed.

Lemma lex_nfa_ok tokens Nf tmap : lex_nfa tokens = Ok (Nf, tmap) ->
  exists ns, Forall2 (fun t n => from_regex (snd t) = Ok n) tokens ns /\
    Nf = fold_left glue ns (tmpl ns) /\
    forall i td h o n, nth_error tokens i = Some (td, h) -> nth_error (blocks 1 ns) i = Some (o, n) ->
      map_get (1 + o) tmap = Some td.
Proof.
  unfold lex_nfa. intros E.
  apply bind_ok in E as (wn & Ew & E). apply mapM_Forall2 in Ew.
  assert (Hfr : Forall2 (fun t x => fst t = fst x /\ from_regex (snd t) = Ok (snd x)) tokens wn).
  { eapply Forall2_impl; [|exact Ew]. intros t x H. simpl in H.
    destruct (from_regex (snd t)); simpl in H; try discriminate. injection H as <-. auto. }
  exists (map snd wn).
  assert (Hm : map (fun t : token_def * nfa => length (states (snd t))) wn = map nst (map snd wn)).
  { rewrite map_map. reflexivity. }
  rewrite Hm, template_eq in E. simpl in E.
  destruct (from_tokens_loop 1 (length wn) wn []) as [ns' tm] eqn:El. injection E as <- <-.
  split; [|split].
  - clear - Hfr. induction Hfr as [|t x ts xs [_ H] HF IH]; simpl; constructor; auto.
  - apply (append_nfas_glue wn (tmpl (map snd wn)) [] ns' tm).
    simpl edges. rewrite map_length, blocks_length, map_length. exact El.
  - apply tokens_map in El as (_ & _ & Ht).
    + intros i td h o n H1 H2. eapply Forall2_nth_l in Hfr as ([td' n'] & H3 & H4 & H5); eauto.
      simpl in H4. subst td'. eapply Ht; eauto.
    + intros td n Hin. apply In_nth_error in Hin as [i Hi].
      eapply Forall2_nth_r in Hfr as ([td' h'] & H3 & H4 & H5); eauto. simpl in *.
      apply from_regex_inv in H5. destruct H5. destruct rn_accs as [k Hk]. split; auto.
      eapply accepting_states_one; eauto.
    + exact I.
    + intros k [].
Qed.
