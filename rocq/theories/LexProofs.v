(** The lexer built from token definitions computes [Tokenize] over their languages. *)
From Verif Require Import Base Regex Nfa NfaProofs Overlap OverlapProofs OverlapLaminar Dfa DfaProofs
  NfaLive Lex LexSpec LexLoop LexNfa.

(** ** Facts about the specification *)

(** Renaming the token numbers. *)
Lemma tokenize_rename (live live' : list N -> Prop) (acc acc' : list N -> nat -> Prop) (f : nat -> nat) :
  (forall w, w <> [] -> (live w <-> live' w)) ->
  (forall w a, w <> [] -> (acc w a <-> exists i, acc' w i /\ a = f i)) ->
  forall pos s ts r, Tokenize live acc pos s ts r ->
  exists ts', Tokenize live' acc' pos s ts' r /\ ts = map (fun x => (fst (fst x), f (snd (fst x)), snd x)) ts'.
Proof.
  intros Hl Ha.
  assert (Hlo : forall u a s, longest acc u a s -> exists i, longest acc' u i s /\ a = f i).
  { intros u a s (H1 & H2 & H3). apply Ha in H2 as (i & Hi & ->); auto. exists i. split; auto.
    split; auto. split; auto. intros u' v' i' E Ha'. destruct u' as [|c u']; [simpl; lia|].
    eapply (H3 _ v' (f i')); eauto. apply Ha; [discriminate|]. eauto. }
  assert (Hno : forall s, no_match acc s -> no_match acc' s).
  { intros s Hn u v i E Hu Hi. eapply Hn; eauto. apply Ha; eauto. }
  assert (Hsk : forall c, skippable live c <-> skippable live' c).
  { intros c. unfold skippable. rewrite (Hl [c]); [tauto|discriminate]. }
  intros pos s ts r H. induction H as [pos|pos u v a ts r Hu Hn H IH|pos u v a Hu Hn|pos c v ts r Hc Hn H IH|pos c v Hn Hc].
  - exists []. split; auto. constructor.
  - destruct IH as (ts' & IH & ->). destruct (Hlo _ _ _ Hu) as (i & Hi & ->).
    exists ((pos, i, u) :: ts'). split; auto. apply TkTok; auto. intros Hx. apply Hn. apply Hl; auto.
    destruct Hi as (Hne & _). destruct u; [congruence|discriminate].
  - destruct (Hlo _ _ _ Hu) as (i & Hi & ->). exists [(pos, i, u)]. split; auto. apply TkLast; auto.
    apply Hl; auto. destruct Hi as (Hne & _). destruct u; [congruence|discriminate].
  - destruct IH as (ts' & IH & ->). exists ts'. split; auto. apply TkSkip; auto. apply Hsk; auto.
  - exists []. split; auto. apply TkStop; auto. rewrite <- Hsk; auto.
Qed.

Lemma unfinished_rename live (f : nat -> nat) s ts r :
  unfinished live s (map (fun x => (fst (fst x), f (snd (fst x)), snd x)) ts) r <-> unfinished live s ts r.
Proof.
  split; (intros [H|[H|(ts' & pre & i & u & E & Es & H)]]; [left; auto|right; left; auto|right; right]).
  - destruct (exists_last (l := ts)) as (l & [[p' i'] u'] & ->); [intros ->; destruct ts'; discriminate|].
    rewrite map_app in E. apply app_inj_tail in E as [_ E]. cbn in E. injection E as -> _ ->. exists l, pre, i', u. auto.
  - subst ts. rewrite map_app. cbn. exists (map (fun x => (fst (fst x), f (snd (fst x)), snd x)) ts'), pre, (f i), u. auto.
Qed.
Lemma halts_rename live (f : nat -> nat) s ts r k :
  halts live s (map (fun x => (fst (fst x), f (snd (fst x)), snd x)) ts) r k -> halts live s ts r k.
Proof. unfold halts. rewrite unfinished_rename. auto. Qed.
Lemma unfinished_ext live live' s ts r : (forall w, w <> [] -> (live w <-> live' w)) -> unfinished live s ts r -> unfinished live' s ts r.
Proof.
  intros Hl H. destruct r as [|c r]; [left; auto|]. right. destruct H as [H|[H|(ts' & pre & i & u & E & Es & H)]]; [discriminate|left; apply Hl; auto; discriminate|].
  right. exists ts', pre, i, u. split; auto. split; auto. apply Hl; auto. destruct u; discriminate.
Qed.
Lemma halts_ext live live' s ts r k : (forall w, w <> [] -> (live w <-> live' w)) -> halts live s ts r k -> halts live' s ts r k.
Proof.
  intros Hl [(Hk & H)|(Hnu & u & x & v & E & Hk & Hu & Hn)].
  - left. split; auto. apply (unfinished_ext live); auto.
  - right. split. { intros H. apply Hnu. revert H. apply unfinished_ext. intros w Hw. symmetry. auto. }
    exists u, x, v. split; auto. split; auto. split.
    + destruct u as [|c u]; auto. right. destruct Hu as [Hu|Hu]; [discriminate|]. apply Hl; auto. discriminate.
    + intros H. apply Hn, Hl; auto. destruct u; discriminate.
Qed.

(** [Tokenize] is a function of the input. *)
Lemma longest_unique (acc : list N -> nat -> Prop) u i u' i' v v' : (forall w i j, acc w i -> acc w j -> i = j) ->
  u ++ v = u' ++ v' -> longest acc u i (u ++ v) -> longest acc u' i' (u' ++ v') -> u = u' /\ v = v' /\ i = i'.
Proof.
  intros Hf E (H1 & H2 & H3) (H1' & H2' & H3').
  pose proof (H3 u' v' i' E H2'). pose proof (H3' u v i (eq_sym E) H2).
  assert (u = u') as <-.
  { destruct (prefix_cases _ _ _ _ E) as [(x & -> & _)|(x & -> & _)]; rewrite app_length in *;
      destruct x; simpl in *; try lia; rewrite app_nil_r; auto. }
  apply app_inv_head in E as ->. split; auto. split; auto. eapply Hf; eauto.
Qed.

Lemma no_match_longest acc u i s v : no_match acc s -> longest acc u i s -> s = u ++ v -> False.
Proof. intros Hn (H1 & H2 & _) E. eapply Hn; eauto. Qed.

Lemma tokenize_det live (acc : list N -> nat -> Prop) : (forall w i j, acc w i -> acc w j -> i = j) ->
  forall pos s ts r ts' r', Tokenize live acc pos s ts r -> Tokenize live acc pos s ts' r' -> ts = ts' /\ r = r'.
Proof.
  intros Hf pos s ts r ts' r' H. revert ts' r'.
  induction H as [pos|pos u v a ts r Hu Hn H IH|pos u v a Hu Hn|pos c v ts r Hc Hn H IH|pos c v Hn Hc];
    intros ts' r' H'.
  - inversion H' as [|? u v i ? ? Hu|? u v i Hu| |]; subst; auto; exfalso; destruct u; try discriminate; apply Hu; auto.
  - remember (u ++ v) as s eqn:Es. revert Es.
    destruct H' as [pos|pos u' v' a' ts' r' Hu' Hn' H'|pos u' v' a' Hu' Hn'|pos c v' ts' r' Hc' Hn' H'|pos c v' Hn' Hc']; intros Es.
    + destruct u; [|discriminate]. exfalso; apply Hu; auto.
    + destruct (longest_unique acc u' a' u a v' v Hf Es Hu') as (-> & -> & ->); [rewrite Es in Hu; auto|].
      destruct (IH _ _ H') as [-> ->]. auto.
    + contradiction.
    + exfalso. eapply no_match_longest; [exact Hn'| |exact Es]. eauto.
    + exfalso. eapply no_match_longest; [exact Hn'| |exact Es]. eauto.
  - remember (u ++ v) as s eqn:Es. revert Es.
    destruct H' as [pos|pos u' v' a' ts' r' Hu' Hn' H'|pos u' v' a' Hu' Hn'|pos c v' ts' r' Hc' Hn' H'|pos c v' Hn' Hc']; intros Es.
    + destruct u; [|discriminate]. exfalso; apply Hu; auto.
    + contradiction.
    + destruct (longest_unique acc u' a' u a v' v Hf Es Hu') as (-> & -> & ->); [rewrite Es in Hu; auto|]. auto.
    + exfalso. eapply no_match_longest; [exact Hn'| |exact Es]. eauto.
    + exfalso. eapply no_match_longest; [exact Hn'| |exact Es]. eauto.
  - remember (c :: v) as s eqn:Es. revert Es.
    destruct H' as [pos|pos u' v' a' ts' r' Hu' Hn' H'|pos u' v' a' Hu' Hn'|pos c' v' ts' r' Hc' Hn' H'|pos c' v' Hn' Hc']; intros Es.
    + discriminate.
    + exfalso. eapply no_match_longest; [exact Hn|exact Hu'|reflexivity].
    + exfalso. eapply no_match_longest; [exact Hn|exact Hu'|reflexivity].
    + injection Es as -> ->. auto.
    + injection Es as -> ->. contradiction.
  - remember (c :: v) as s eqn:Es. revert Es.
    destruct H' as [pos|pos u' v' a' ts' r' Hu' Hn' H'|pos u' v' a' Hu' Hn'|pos c' v' ts' r' Hc' Hn' H'|pos c' v' Hn' Hc']; intros Es.
    + discriminate.
    + exfalso. eapply no_match_longest; [exact Hn|exact Hu'|reflexivity].
    + exfalso. eapply no_match_longest; [exact Hn|exact Hu'|reflexivity].
    + injection Es as -> ->. contradiction.
    + injection Es as -> ->. auto.
Qed.

Lemma munch_det live (acc : list N -> nat -> Prop) : (forall w i j, acc w i -> acc w j -> i = j) ->
  forall pos s ts r ts' r', Munch live acc pos s ts r -> Munch live acc pos s ts' r' -> ts = ts' /\ r = r'.
Proof.
  intros Hf pos s ts r ts' r' H. revert ts' r'.
  induction H as [pos|pos u v a ts r Hu H IH|pos c v ts r Hc Hn H IH|pos c v Hn Hc];
    intros ts' r' H'.
  - inversion H' as [|? u v i ? ? Hu| |]; subst; auto; exfalso; destruct u; try discriminate; apply Hu; auto.
  - remember (u ++ v) as s eqn:Es. revert Es.
    destruct H' as [pos|pos u' v' a' ts' r' Hu' H'|pos c v' ts' r' Hc' Hn' H'|pos c v' Hn' Hc']; intros Es.
    + destruct u; [|discriminate]. exfalso; apply Hu; auto.
    + destruct (longest_unique acc u' a' u a v' v Hf Es Hu') as (-> & -> & ->); [rewrite Es in Hu; auto|].
      destruct (IH _ _ H') as [-> ->]. auto.
    + exfalso. eapply no_match_longest; [exact Hn'| |exact Es]. eauto.
    + exfalso. eapply no_match_longest; [exact Hn'| |exact Es]. eauto.
  - remember (c :: v) as s eqn:Es. revert Es.
    destruct H' as [pos|pos u' v' a' ts' r' Hu' H'|pos c' v' ts' r' Hc' Hn' H'|pos c' v' Hn' Hc']; intros Es.
    + discriminate.
    + exfalso. eapply no_match_longest; [exact Hn|exact Hu'|reflexivity].
    + injection Es as -> ->. auto.
    + injection Es as -> ->. contradiction.
  - remember (c :: v) as s eqn:Es. revert Es.
    destruct H' as [pos|pos u' v' a' ts' r' Hu' H'|pos c' v' ts' r' Hc' Hn' H'|pos c' v' Hn' Hc']; intros Es.
    + discriminate.
    + exfalso. eapply no_match_longest; [exact Hn|exact Hu'|reflexivity].
    + injection Es as -> ->. contradiction.
    + injection Es as -> ->. auto.
Qed.

Lemma first_match_fun hs w i j : first_match hs w i -> first_match hs w j -> i = j.
Proof.
  intros ((h & Hh & Hw) & Hm) ((h' & Hh' & Hw') & Hm').
  destruct (Nat.lt_trichotomy i j) as [Hc|[Hc|Hc]]; auto; exfalso.
  - eapply Hm'; eauto. - eapply Hm; eauto.
Qed.

Lemma tokenize_layout live acc pos s ts r :
  Tokenize live acc pos s ts r -> Layout pos s (map drop_idx ts) r.
Proof.
  induction 1 as [pos|pos u v a ts r Hu Hn H IH|pos u v a Hu Hn|pos c v ts r Hc Hn H IH|pos c v Hn Hc]; simpl.
  - constructor.
  - apply LayTok; auto. apply Hu.
  - apply LayTok; [apply Hu|constructor].
  - apply LaySkip; auto. apply Hc.
  - constructor.
Qed.

(** Positions and texts of a layout are those of the input. *)
Lemma layout_pos pos s ts r : Layout pos s ts r ->
  forall p u, In (p, u) ts -> exists a b, s = a ++ u ++ b /\ p = pos + length a /\ u <> [].
Proof.
  induction 1 as [pos r|pos u v ts r Hu H IH|pos c v ts r Hc H IH]; intros p x Hin.
  - destruct Hin.
  - destruct Hin as [E|Hin].
    + injection E as <- <-. exists [], v. split; [reflexivity|split; [simpl; lia|auto]].
    + apply IH in Hin as (a & b & -> & -> & Hx). exists (u ++ a), b. rewrite app_assoc, app_length. split; [rewrite app_assoc; reflexivity|split; [lia|auto]].
  - apply IH in Hin as (a & b & -> & -> & Hx). exists (c :: a), b. split; [reflexivity|split; [simpl; lia|auto]].
Qed.

(** ** Byte offsets of ASCII text *)

Lemma split_byte_ascii a : forall b, ascii a -> split_byte (a ++ b) (length a) = Some (a, b).
Proof.
  induction a as [|c a IH]; intros b Ha; simpl; [destruct b; reflexivity|]. pose proof (Forall_inv Ha) as Hc. apply Forall_inv_tail in Ha. simpl in Hc.
  unfold utf8_len1. destruct (N.ltb_spec c 128); [|lia]. simpl.
  rewrite Nat.sub_0_r, IH; auto.
Qed.

Lemma byte_slice_ascii a u b : ascii (a ++ u) -> byte_slice (a ++ u ++ b) (length a) (length a + length u) = Ok u.
Proof.
  intros H. unfold byte_slice. apply Forall_app in H as [H1 H2].
  destruct (Nat.ltb_spec (length a + length u) (length a)); [lia|].
  rewrite split_byte_ascii by exact H1.
  replace (length a + length u - length a) with (length u) by lia.
  rewrite split_byte_ascii by exact H2. reflexivity.
Qed.

(** ** Accepting states of the DFA *)

Lemma alter_fold k l : forall (m : list (nat * list nat)), msorted m ->
  let m' := fold_left (fun m s => map_alter k (fun o => match o with None => [s] | Some v => v ++ [s] end) m) l m in
  msorted m' /\ (forall k', k' <> k -> map_get k' m' = map_get k' m) /\
  map_get k m' = match map_get k m with Some v => Some (v ++ l)
                 | None => match l with [] => None | _ => Some l end end.
Proof.
  induction l as [|s l IH]; intros m Hm; simpl.
  - split; auto. split; auto. destruct (map_get k m); auto. rewrite app_nil_r; auto.
  - set (m1 := map_alter k _ m). destruct (IH m1 (map_alter_sorted _ _ _ Hm)) as (I1 & I2 & I3).
    split; auto. split.
    + intros k' Hk. rewrite I2 by auto. apply map_get_alter_other; auto.
    + rewrite I3. unfold m1. rewrite map_get_alter_same by auto.
      destruct (map_get k m); simpl; auto. rewrite <- app_assoc. reflexivity.
Qed.

Lemma d_accepting_states_get d t : msorted (dfa_to_nfa d) ->
  map_get t (d_accepting_states d) =
  match map_get t (dfa_to_nfa d) with
  | None => None
  | Some q => match filter (fun s => set_mem s (d_accepting d)) q with [] => None | l => Some l end
  end.
Proof.
  intros Hs. unfold d_accepting_states.
  assert (G : forall l m, msorted l -> msorted m -> (forall k, In k (keys l) -> map_get k m = None) ->
    map_get t (fold_left (fun ret x =>
      fold_left (fun ret s => map_alter (fst x) (fun o => match o with None => [s] | Some v => v ++ [s] end) ret)
        (filter (fun s => set_mem s (d_accepting d)) (snd x)) ret) l m) =
    match map_get t l with
    | None => map_get t m
    | Some q => match filter (fun s => set_mem s (d_accepting d)) q with [] => None | l => Some l end
    end).
  { induction l as [|[k q] l IH]; intros m Hl Hm Hk; simpl; auto.
    destruct (alter_fold k (filter (fun s => set_mem s (d_accepting d)) q) m Hm) as (A1 & A2 & A3).
    simpl in A1, A2, A3. destruct Hl as [Hl1 Hl2]. simpl in Hl1.
    rewrite IH; auto.
    - destruct (eqb t k) eqn:E.
      + apply eqb_eq in E. subst k. rewrite (proj2 (map_get_None t l)).
        * rewrite A3, Hk; [|left; auto]. destruct (filter _ q); auto.
        * intros Hin. apply Hl1 in Hin. rewrite Nat.compare_refl in Hin. discriminate.
      + apply eqb_neq in E. rewrite A2 by auto. auto.
    - intros k' Hk'. rewrite A2.
      + apply Hk. right; auto.
      + intros ->. apply Hl1 in Hk'. rewrite Nat.compare_refl in Hk'. discriminate. }
  rewrite G by (auto; exact I). destruct (map_get t (dfa_to_nfa d)); auto.
Qed.

Lemma map_ok_sorted ds m : map_ok ds m -> msorted m.
Proof.
  intros ->. unfold msorted, keys. destruct ds as [|d0 ds]; [exact I|]. simpl.
  replace (length ds - 0) with (length ds) by lia.
  assert (G : forall (l : list (list nat)) a, map fst (combine (seq a (length l)) l) = seq a (length l)).
  { induction l as [|x l IH]; intros a; simpl; auto. rewrite IH; auto. }
  rewrite G. apply ssorted_seq.
Qed.

(** ** The lexer *)

(** The tokens the caller sees if texts are taken from the characters. *)
Definition plain_token (tokens : list (token_def * hir)) (x : nat * nat * list N) : token :=
  let '(_, i, u) := x in
  match nth_error tokens i with
  | Some (td, _) => Token (td_name td) (if td_with_val td then Some u else None)
  | None => Token [] None
  end.

Lemma mapM_map {A B} (f : A -> res B) (g : A -> B) l :
  (forall a, In a l -> f a = Ok (g a)) -> mapM f l = Ok (map g l).
Proof.
  induction l as [|a l IH]; intros H; simpl; auto. rewrite H by (left; auto). simpl.
  rewrite IH; auto. intros; apply H; right; auto.
Qed.

Section Lexer.
  Variable tokens : list (token_def * hir).
  Variable L : lexer.
  Hypothesis HL : from_tokens tokens = Ok L.
  Let hs := map snd tokens.

  (** All that is needed about the automata. *)
  Lemma lexer_parts : exists ns Nf al ds,
    Forall2 (fun t n => from_regex (snd t) = Ok n) tokens ns /\ Nf = fold_left glue ns (tmpl ns) /\
    wf Nf /\ START_IDX < nst Nf /\ (forall e, In e (edges Nf) -> e_to e <> START_IDX) /\
    from_nfa Nf = Ok (lx_dfa L) /\
    remove_overlap (set_of_list (edge_labels (edges Nf))) = Ok al /\
    dfa_ok Nf al (lx_dfa L) ds /\ lx_accepting L = d_accepting_states (lx_dfa L) /\
    (forall i td h o n, nth_error tokens i = Some (td, h) -> nth_error (blocks 1 ns) i = Some (o, n) ->
       map_get (1 + o) (lx_tokens L) = Some td) /\
    (forall a, In a (accepting_states Nf) <-> exists i o n, nth_error (blocks 1 ns) i = Some (o, n) /\ a = 1 + o) /\
    (forall i o n h w, nth_error (blocks 1 ns) i = Some (o, n) -> nth_error hs i = Some h ->
       (path (edges Nf) START_IDX w (1 + o) <-> Lang h w)) /\
    (forall m, In m (edge_labels (edges Nf)) <-> In m (flat_map written hs)) /\
    ((forall h, In h hs -> productive h) -> forall w, w <> [] ->
       ((exists t, path (edges Nf) START_IDX w t) <-> viable hs w)).
  Proof.
    unfold from_tokens in HL. apply bind_ok in HL as ((Nf & tmap) & E1 & E2).
    apply bind_ok in E2 as (d & E2 & E3). injection E3 as <-. simpl.
    apply lex_nfa_ok in E1 as (ns & HF & -> & Htm).
    assert (HR : Forall (fun n => exists h, regex_nfa h n) ns).
    { clear - HF. induction HF; constructor; auto. exists (snd x). apply from_regex_inv; auto. }
    assert (W1 : Forall wf ns) by (eapply Forall_impl; [|exact HR]; intros n (h & []); auto).
    assert (W2 : Forall (fun n => 2 <= nst n) ns) by (eapply Forall_impl; [|exact HR]; intros n (h & []); auto).
    assert (W3 : Forall (fun n => forall e, In e (edges n) -> e_to e <> START_IDX) ns)
      by (eapply Forall_impl; [|exact HR]; intros n (h & []); auto).
    assert (W4 : Forall (fun n => exists k, accs n = [false; true] ++ repeat false k) ns)
      by (eapply Forall_impl; [|exact HR]; intros n (h & []); auto).
    pose proof (asm_wf ns W1 W2 W3) as Hwf. pose proof (asm_start ns) as Hst.
    destruct (from_nfa_inv _ _ Hwf Hst E2) as (al & ds & Ea & Hok).
    exists ns, (fold_left glue ns (tmpl ns)), al, ds. split; auto. split; auto. split; auto. split; auto.
    split; [apply asm_no_in; auto|]. split; auto. split; auto. split; auto. split; auto. split; auto.
    split; [apply asm_accepting; auto|].
    assert (Hnth : forall i o n, nth_error (blocks 1 ns) i = Some (o, n) ->
              exists td h, nth_error tokens i = Some (td, h) /\ from_regex h = Ok n).
    { intros i o n Hi. apply blocks_nth in Hi as (Hi & _).
      destruct (Forall2_nth_r _ _ _ _ _ HF Hi) as ([td h] & H1 & H2). eauto. }
    split; [|split].
    - intros i o n h w Hi Hh. destruct (Hnth _ _ _ Hi) as (td & h' & H1 & H2).
      unfold hs in Hh. rewrite nth_error_map, H1 in Hh. injection Hh as <-.
      rewrite (asm_accepting_path ns W1 W2 W3 _ _ _ _ Hi). apply from_regex_inv in H2. apply H2.
    - intros m. rewrite asm_labels, in_flat_map by auto. split.
      + intros (n & Hn & Hm). apply In_nth_error in Hn as [i Hi].
        destruct (Forall2_nth_r _ _ _ _ _ HF Hi) as ([td h] & H1 & H2). exists h. split.
        * unfold hs. apply nth_error_In in H1. apply (in_map snd) in H1. auto.
        * apply written_label. apply (from_regex_labels h n); auto.
      + intros (h & Hh & Hm). unfold hs in Hh. apply in_map_iff in Hh as ([td h'] & E & Hi). simpl in E. subst h'.
        apply In_nth_error in Hi as [i Hi]. destruct (Forall2_nth_l _ _ _ _ _ HF Hi) as (n & Hn & Hfr).
        exists n. split; [eapply nth_error_In; eauto|]. apply (from_regex_labels h n); auto. apply written_label; auto.
    - intros Hp w Hne. split.
      + intros (t & Ht). apply asm_path in Ht as [(-> & _)|(i & o & n & t' & Hi & _ & Hpth)]; auto; [congruence|].
        destruct (Hnth _ _ _ Hi) as (td & h & H1 & H2).
        assert (Hin : In h hs) by (unfold hs; apply nth_error_In in H1; apply (in_map snd) in H1; auto).
        destruct (proj1 (from_regex_live h n w H2 (Hp h Hin))) as (v & Hv); [eauto|].
        exists h, v. auto.
      + intros (h & v & Hin & Hv). pose proof Hin as Hi. unfold hs in Hi. apply in_map_iff in Hi as ([td h'] & E & Hi).
        simpl in E. subst h'. apply In_nth_error in Hi as [i Hi].
        destruct (Forall2_nth_l _ _ _ _ _ HF Hi) as (n & Hn & Hfr). simpl in Hfr.
        destruct (blocks_nth_ex 1 ns i n Hn) as [o Ho].
        destruct (proj2 (from_regex_live h n w Hfr (Hp h Hin))) as (t & Ht); [eauto|].
        exists (t + o). apply asm_path; auto. right. exists i, o, n, t. auto.
  Qed.

  (** What a token found by the loop becomes (lex.rs:224-250, in terms of definitions). *)
  Definition token_of (input : list N) (x : nat * nat * list N) : res token :=
    let '(pos, i, u) := x in
    match nth_error tokens i with
    | Some (td, _) =>
        if td_with_val td then
          let* v := byte_slice input pos (pos + length u) in Ok (Token (td_name td) (Some v))
        else Ok (Token (td_name td) None)
    | None => Panic PNoToken
    end.

  (** The lexing loop in terms of token definitions. *)
  Lemma lex_tokens_live : exists (lv : list N -> Prop) (ac : list N -> nat -> Prop),
    (lv = liveD L /\ (forall w i, ac w i -> lv w) /\ forall w i j, ac w i -> ac w j -> i = j) /\
    (forall w i, ac w i -> exists h, nth_error hs i = Some h /\ Lang h w) /\
    (forall input, exists ts r i, Tokenize lv ac 0 input ts r /\ lex L input = mapM (token_of input) ts /\
       char_run L input (map (plain_token tokens) ts) i /\ ((exists out, lex L input = Ok out) -> ends_at L input i) /\
       i <= length input /\ halts lv input ts r (length input - i)) /\
    (forall w, lv w \/ ~ lv w) /\ (forall w, (exists i, ac w i) \/ forall i, ~ ac w i) /\
    (split_refines hs ->
     (forall w i, w <> [] -> (ac w i <-> first_match hs w i)) /\
     ((forall h, In h hs -> productive h) -> forall w, w <> [] -> (lv w <-> viable hs w))).
  Proof.
    destruct lexer_parts as (ns & Nf & al & ds & HF & EN & Hwf & Hst & Hnoin & Efn & Eal & Hok & Eacc & Htok & Hac & Hlang & Hlab & Hlive).
    assert (Hlen : length tokens = length ns) by (eapply Forall2_len; eauto).
    set (f := fun i => match nth_error (blocks 1 ns) i with Some (o, _) => 1 + o | None => 0 end).
    assert (Hblk : forall i, i < length tokens -> exists td h o n, nth_error tokens i = Some (td, h) /\
              nth_error hs i = Some h /\ nth_error (blocks 1 ns) i = Some (o, n) /\ f i = 1 + o).
    { intros i Hi. destruct (nth_error tokens i) as [[td h]|] eqn:E; [|apply nth_error_None in E; lia].
      destruct (nth_error (blocks 1 ns) i) as [[o n]|] eqn:E'.
      - exists td, h, o, n. split; auto. split; [unfold hs; rewrite nth_error_map, E; auto|]. split; auto.
        unfold f. rewrite E'. auto.
      - apply nth_error_None in E'. rewrite blocks_length in E'. lia. }
    pose proof Hok as (_ & Hmap & Hacc & _).
    assert (Hget : forall t, map_get t (lx_accepting L) =
       match map_get t (dfa_to_nfa (lx_dfa L)) with
       | None => None
       | Some q => match filter (fun s => set_mem s (accepting_states Nf)) q with [] => None | l => Some l end
       end).
    { intros t. rewrite Eacc, d_accepting_states_get by (eapply map_ok_sorted; eauto). rewrite Hacc. auto. }
    assert (Hrun : forall w, exists o, d_run (lx_dfa L) 0 w = Ok o).
    { intros w. destruct (d_run_sound _ _ _ _ Hok w) as (o & E & _). eauto. }
    assert (Hne : forall t l, map_get t (lx_accepting L) = Some l -> l <> []).
    { intros t l E. rewrite Hget in E. destruct (map_get t (dfa_to_nfa (lx_dfa L))) as [q|]; [|discriminate].
      destruct (filter _ q); [discriminate|]. injection E as <-. discriminate. }
    assert (HaccD : forall w a, accD L w a -> exists t q l, d_run (lx_dfa L) 0 w = Ok (Some t) /\
              map_get t (dfa_to_nfa (lx_dfa L)) = Some q /\ nth_error ds t = Some q /\ t <> 0 /\
              filter (fun s => set_mem s (accepting_states Nf)) q = a :: l).
    { intros w a (t & l & Et & El). rewrite Hget in El.
      destruct (map_get t (dfa_to_nfa (lx_dfa L))) as [q|] eqn:Eq; [|discriminate].
      destruct (filter _ q) as [|x l'] eqn:Ef; [discriminate|]. injection El as -> ->.
      exists t, q, l. split; auto. split; auto. pose proof Eq as Eq'. rewrite (map_ok_get _ _ _ Hmap) in Eq'.
      destruct t; [discriminate|]. split; auto. }
    assert (Hsound : forall w a, accD L w a -> exists i, i < length tokens /\ a = f i /\
              exists h, nth_error hs i = Some h /\ Lang h w).
    { intros w a Ha. destruct (HaccD w a Ha) as (t & q & l & E1 & E2 & E3 & E4 & E5).
      assert (Hin : In a (filter (fun s => set_mem s (accepting_states Nf)) q)) by (rewrite E5; left; auto).
      apply filter_In in Hin as [Hq Hm]. apply set_mem_In in Hm. apply Hac in Hm as (i & o & n & Hi & ->).
      assert (Hil : i < length tokens).
      { apply nth_error_lt in Hi. rewrite blocks_length in Hi. lia. }
      exists i. split; auto. destruct (Hblk i Hil) as (td & h & o' & n' & B1 & B2 & B3 & B4).
      rewrite Hi in B3. injection B3 as <- <-. split; auto. exists h. split; auto.
      apply (Hlang i o n h w Hi B2).
      destruct (d_run_sound _ _ _ _ Hok w) as (o1 & Eo & Ho). rewrite E1 in Eo. injection Eo as <-.
      destruct Ho as (q' & Hq' & _ & Hx). rewrite E3 in Hq'. injection Hq' as <-. auto. }
    exists (liveD L), (fun w i => i < length tokens /\ accD L w (f i)).
    assert (Hinj : forall i j, i < length tokens -> j < length tokens -> f i = f j -> i = j).
    { intros i j Hi Hj E. destruct (Hblk i Hi) as (_ & _ & o & n & _ & _ & B3 & B4).
      destruct (Hblk j Hj) as (_ & _ & o' & n' & _ & _ & C3 & C4).
      assert (Hsz : forall k o n, nth_error (blocks 1 ns) k = Some (o, n) -> 2 <= nst n).
      { intros k o0 n0 Hk. apply blocks_nth in Hk as (Hk & _).
        destruct (Forall2_nth_r _ _ _ _ _ HF Hk) as ([td h] & _ & Hr). apply from_regex_inv in Hr. apply Hr. }
      destruct (Nat.lt_trichotomy i j) as [Hc|[Hc|Hc]]; auto; exfalso.
      - pose proof (blocks_order _ _ _ _ _ _ _ _ B3 C3 Hc). specialize (Hsz _ _ _ B3). lia.
      - pose proof (blocks_order _ _ _ _ _ _ _ _ C3 B3 Hc). specialize (Hsz _ _ _ C3). lia. }
    assert (Hmono : forall i j, j < length tokens -> i < j -> f i < f j).
    { intros i j Hj Hij. destruct (Hblk i ltac:(lia)) as (_ & _ & o & n & _ & _ & B3 & B4).
      destruct (Hblk j Hj) as (_ & _ & o' & n' & _ & _ & C3 & C4).
      pose proof (blocks_order _ _ _ _ _ _ _ _ B3 C3 Hij).
      assert (f i <> f j) by (intros E; apply Hinj in E; lia). lia. }
    assert (Hdet : forall w i j, accD L w i -> accD L w j -> i = j).
    { intros w a b (t1 & l1 & R1 & A1) (t2 & l2 & R2 & A2). rewrite R1 in R2. injection R2 as <-. rewrite A1 in A2. congruence. }
    split; [|split; [|split; [|split; [|split]]]].
    - split; auto. split; [intros w i [_ H]; eapply accD_live; eauto|].
      intros w i j [Hi H1] [Hj H2]. apply Hinj; auto. eapply Hdet; eauto.
    - intros w i [Hi Ha]. destruct (Hsound _ _ Ha) as (j & Hj & E & h & H1 & H2).
      apply Hinj in E; auto. subst j. eauto.
    - intros input. destruct (lex_tokenize L Hrun Hne input) as (ts & r & i0 & Ht & El & He & Hle & Hh).
      destruct (loop_tokenize L Hrun Hne input (make_char L input)) as (n & t & ts2 & r2 & Ht2 & Hn & Hsteps & Hend & Hle2 & Hh2).
      destruct (tokenize_det _ _ Hdet _ _ _ _ _ _ Ht2 Ht) as [-> ->]. clear Ht2.
      destruct (tokenize_rename (liveD L) (liveD L) (accD L) (fun w i => i < length tokens /\ accD L w (f i)) f)
        with (3 := Ht) as (ts' & Ht' & Ets).
      { tauto. }
      { intros w a Hw. split.
        - intros Ha. destruct (Hsound _ _ Ha) as (i & Hi & -> & _). eauto.
        - intros (i & [_ Ha] & ->). auto. }
      assert (Hts : Forall (fun x => snd x <> [] /\ snd (fst x) < length tokens) ts').
      { clear - Ht'. induction Ht' as [pos|pos u v a ts r Hu Hn H IH|pos u v a Hu Hn|pos c v ts r Hc Hn H IH|pos c v Hn Hc];
          auto; constructor; auto; simpl; destruct Hu as (? & [? ?] & ?); auto. }
      assert (Hchar : mapM (mk (make_char L input)) ts = Ok (map (plain_token tokens) ts')).
      { pose proof (tokenize_layout _ _ _ _ _ _ Ht') as Hlay.
        assert (Hpos : forall p u, In (p, u) (map drop_idx ts') -> firstn (length u) (skipn p input) = u).
        { intros p u Hx. destruct (layout_pos _ _ _ _ Hlay p u Hx) as (a & b & -> & -> & _). cbn [plus].
          rewrite skipn_app, skipn_all, Nat.sub_diag, app_nil_l. cbn [skipn]. rewrite firstn_app, firstn_all, Nat.sub_diag. apply app_nil_r. }
        rewrite Ets. clear - Hts Hblk Htok Hpos. induction Hts as [|[[pos i] u] ts' [Hu Hi] HF' IH]; auto.
        cbn [snd fst] in Hu, Hi. cbn [map mapM]. rewrite IH by (intros; apply Hpos; right; auto).
        destruct (Hblk i Hi) as (td & h & o & n & B1 & B2 & B3 & B4).
        cbn [mk fst snd]. unfold make_char at 1. rewrite B4, (Htok _ _ _ _ _ B1 B3). cbn [bind plain_token]. rewrite B1.
        replace (pos + length u - 1 + 1 - pos) with (length u) by (destruct u; [congruence|cbn [length]; lia]).
        rewrite (Hpos pos u) by (left; reflexivity). reflexivity. }
      rewrite Hchar in *. exists ts', r, (ls_forward t). split; auto. split.
      { rewrite El, Ets. clear - Hts Hblk Htok. induction Hts as [|[[pos i] u] ts' [Hu Hi] HF' IH]; simpl; auto.
        simpl in Hu, Hi. rewrite IH. f_equal. destruct (Hblk i Hi) as (td & h & o & n & B1 & B2 & B3 & B4).
        unfold make_tok, token_of. rewrite B4, (Htok _ _ _ _ _ B1 B3), B1.
        replace (pos + length u - 1 + 1) with (pos + length u); auto.
        destruct u; [congruence|simpl; lia]. }
      specialize (Hh2 (ex_intro _ _ eq_refl)). split; [exists n, t; auto|]. split; [|split; auto].
      + intros Ho. specialize (Hh Ho). pose proof (halts_det _ _ _ _ (liveD_prefix L) _ _ Hh Hh2) as E.
        replace (ls_forward t) with i0 by lia. exact He.
      + apply (halts_rename (liveD L) f). rewrite <- Ets. exact Hh2.
    - apply liveD_dec; auto.
    - intros w. destruct (accD_dec L Hrun Hne w) as [[a Ha]|H].
      + left. destruct (Hsound _ _ Ha) as (i & Hi & -> & _). eauto.
      + right. intros i [_ Hi]. eapply H; eauto.
    - intros Hlam.
      assert (Hal : alpha_ok (edge_labels (edges Nf)) al).
      { apply split_alpha_ok; auto. intros r m c e Hr Hm. apply (Hlam al); [|exact Hr|apply Hlab; exact Hm].
        rewrite <- Eal. f_equal.
        apply ssorted_ext; try apply set_of_list_sorted. intros x. rewrite !set_of_list_In. symmetry. apply Hlab. }
      pose proof (d_run_tracks _ _ _ _ Hok Hal) as HT.
      destruct (from_nfa_tracks Nf (lx_dfa L) Hwf Hst Hnoin (ex_intro _ al (conj Eal Hal)) Efn) as (T1 & T2 & _).
      split.
      + intros w i Hw. split.
        * intros [Hi Ha]. destruct (Hsound _ _ Ha) as (i' & Hi' & E & h & H1 & H2).
          apply Hinj in E; auto. subst i'. split; [eauto|].
          intros j h' Hj Hh' Hl.
          destruct (Hblk j ltac:(lia)) as (td & h'' & o & n & B1 & B2 & B3 & B4).
          rewrite Hh' in B2. injection B2 as <-.
          apply (Hlang j o n h' w B3 Hh') in Hl.
          destruct (HaccD w _ Ha) as (t & q & l & E1 & E2 & E3 & E4 & E5).
          destruct (HT w) as (o1 & Eo & Ho). rewrite E1 in Eo. injection Eo as <-.
          destruct Ho as (q' & Hq' & _ & Hx). rewrite E3 in Hq'. injection Hq' as <-.
          assert (Hin : In (1 + o) (filter (fun s => set_mem s (accepting_states Nf)) q)).
          { apply filter_In. split; [apply Hx; auto|]. apply set_mem_In. apply Hac. eauto. }
          assert (Hs : ssorted (filter (fun s => set_mem s (accepting_states Nf)) q)).
          { apply ssorted_filter. pose proof Hok as ((c0 & (_ & Hq & _) & _) & _).
            apply nth_error_In in E3. apply Hq in E3. apply E3. }
          rewrite E5 in Hin, Hs. rewrite <- B4 in Hin. pose proof (Hmono j i Hi Hj).
          destruct Hin as [E|Hin]; [lia|]. destruct Hs as [Hs _]. apply Hs in Hin. simpl in Hin.
          apply Nat.compare_lt_iff in Hin. lia.
        * intros ((h & Hh & Hl) & Hmin).
          assert (Hi : i < length tokens).
          { apply nth_error_lt in Hh. unfold hs in Hh. rewrite map_length in Hh. auto. }
          split; auto.
          destruct (Hblk i Hi) as (td & h' & o & n & B1 & B2 & B3 & B4). rewrite Hh in B2. injection B2 as <-.
          pose proof (proj2 (Hlang i o n h w B3 Hh) Hl) as Hp.
          destruct (proj2 (T1 w)) as (t & Ht); [eauto|].
          destruct (T2 w t Hw Ht) as (q & Eq & Hx).
          assert (Hin : In (f i) (filter (fun s => set_mem s (accepting_states Nf)) q)).
          { apply filter_In. rewrite B4. split; [apply Hx; auto|]. apply set_mem_In. apply Hac. eauto. }
          destruct (filter (fun s => set_mem s (accepting_states Nf)) q) as [|a l] eqn:Ef; [destruct Hin|].
          assert (Ha : accD L w a).
          { exists t, l. split; [apply (follows_d_run _ _ _ _ _ _ Hok); auto|]. rewrite Hget, Eq, Ef. auto. }
          destruct (Hsound _ _ Ha) as (j & Hj & -> & h2 & H1 & H2).
          destruct (Nat.lt_trichotomy i j) as [Hc|[Hc|Hc]].
          -- exfalso.
             assert (Hs : ssorted (f j :: l)).
             { rewrite <- Ef. apply ssorted_filter. pose proof Hok as ((c0 & (_ & Hq & _) & _) & _).
               rewrite (map_ok_get _ _ _ Hmap) in Eq. destruct t; [discriminate|].
               apply nth_error_In in Eq. apply Hq in Eq. apply Eq. }
             pose proof (Hmono i j Hj Hc). destruct Hin as [E|Hin]; [lia|]. destruct Hs as [Hs _].
             apply Hs in Hin. simpl in Hin. apply Nat.compare_lt_iff in Hin. lia.
          -- subst j; auto.
          -- exfalso. eapply Hmin; eauto.
      + intros Hp w Hw. rewrite <- (Hlive Hp w Hw), <- (T1 w). unfold liveD.
        split; intros (t & Ht); exists t; apply (follows_d_run _ _ _ _ _ _ Hok); auto.
  Qed.
  Lemma lex_tokens_gen : exists (lv : list N -> Prop) (ac : list N -> nat -> Prop),
    (forall w i, ac w i -> exists h, nth_error hs i = Some h /\ Lang h w) /\
    (forall input, exists ts r i, Tokenize lv ac 0 input ts r /\ lex L input = mapM (token_of input) ts /\
       char_run L input (map (plain_token tokens) ts) i /\ ((exists out, lex L input = Ok out) -> ends_at L input i) /\
       i <= length input /\ halts lv input ts r (length input - i)) /\
    (forall w, lv w \/ ~ lv w) /\ (forall w, (exists i, ac w i) \/ forall i, ~ ac w i) /\
    (split_refines hs ->
     (forall w i, w <> [] -> (ac w i <-> first_match hs w i)) /\
     ((forall h, In h hs -> productive h) -> forall w, w <> [] -> (lv w <-> viable hs w))).
  Proof. destruct lex_tokens_live as (lv & ac & _ & H). exists lv, ac. exact H. Qed.
End Lexer.

(** ** Totality of the reference tokeniser, and how the code relates to it *)

Section MunchFacts.
  Variable live : list N -> Prop.
  Variable acc : list N -> nat -> Prop.
  Hypothesis live_dec : forall w, live w \/ ~ live w.
  Hypothesis acc_dec : forall w, (exists i, acc w i) \/ forall i, ~ acc w i.

  Lemma acc_longest_or_none s : (exists u v i, s = u ++ v /\ longest acc u i s) \/ no_match acc s.
  Proof.
    assert (G : forall n, (exists u v i, s = u ++ v /\ u <> [] /\ acc u i /\ length u <= n /\
                  forall u' v' i', s = u' ++ v' -> acc u' i' -> length u' <= n -> length u' <= length u)
              \/ (forall u v i, s = u ++ v -> u <> [] -> length u <= n -> ~ acc u i)).
    { induction n as [|n IH].
      - right. intros u v i _ Hu Hl. destruct u; [congruence|simpl in Hl; lia].
      - destruct (le_lt_dec (S n) (length s)) as [Hle|Hgt].
        + destruct (acc_dec (firstn (S n) s)) as [[a Ha]|Hno].
          * left. exists (firstn (S n) s), (skipn (S n) s), a. rewrite firstn_skipn.
            assert (length (firstn (S n) s) = S n) by (rewrite firstn_length; lia).
            split; auto. split; [intros E; rewrite E in *; discriminate|]. split; auto. split; [lia|].
            intros; lia.
          * destruct IH as [(u & v & i & Es & Hu & Ha & Hl & Hmax)|IH].
            -- left. exists u, v, i. split; auto. split; auto. split; auto. split; [lia|].
               intros u' v' i' E' Ha' Hl'. destruct (Nat.eq_dec (length u') (S n)) as [Heq|].
               ++ exfalso. apply (Hno i'). rewrite E', firstn_app, <- Heq, firstn_all, Nat.sub_diag. simpl.
                  rewrite app_nil_r; auto.
               ++ eapply Hmax; eauto; lia.
            -- right. intros u v i Es Hu Hl Ha. destruct (Nat.eq_dec (length u) (S n)) as [Heq|].
               ++ apply (Hno i). rewrite Es, firstn_app, <- Heq, firstn_all, Nat.sub_diag. simpl.
                  rewrite app_nil_r; auto.
               ++ eapply IH; eauto; lia.
        + destruct IH as [(u & v & i & Es & Hu & Ha & Hl & Hmax)|IH].
          * left. exists u, v, i. split; auto. split; auto. split; auto. split; [lia|].
            intros u' v' i' E' Ha' Hl'. eapply Hmax; eauto. rewrite E', app_length in Hgt. lia.
          * right. intros u v i Es Hu Hl. eapply IH; eauto. rewrite Es, app_length in Hgt. lia. }
    destruct (G (length s)) as [(u & v & i & Es & Hu & Ha & Hl & Hmax)|H].
    - left. exists u, v, i. split; auto. split; auto. split; auto.
      intros u' v' i' E' Ha'. eapply Hmax; eauto. rewrite E', app_length. lia.
    - right. intros u v i Es Hu. eapply H; eauto. rewrite Es, app_length. lia.
  Qed.

  Lemma munch_total : forall n s pos, length s <= n -> exists ts r, Munch live acc pos s ts r.
  Proof.
    induction n as [|n IH]; intros s pos Hl.
    - destruct s; [|simpl in Hl; lia]. exists [], []. constructor.
    - destruct (acc_longest_or_none s) as [(u & v & i & -> & Hlo)|Hno].
      + assert (u <> []) by apply Hlo. destruct (IH v (pos + length u)) as (ts & r & Ht).
        { rewrite app_length in Hl. destruct u; [congruence|simpl in Hl; lia]. }
        exists ((pos, i, u) :: ts), r. apply MTok; auto.
      + destruct s as [|c v]; [exists [], []; constructor|].
        assert (Hd : skippable live c \/ ~ skippable live c).
        { unfold skippable, white. destruct (live_dec [c]); [tauto|].
          destruct (N.eq_dec c 10), (N.eq_dec c 32); tauto. }
        destruct Hd.
        * destruct (IH v (S pos)) as (ts & r & Ht); [simpl in Hl; lia|].
          exists ts, r. apply MSkip; auto.
        * exists [], (c :: v). apply MStop; auto.
  Qed.

  (** The tokens returned are an initial part of the maximal munch. *)
  Lemma tokenize_munch_prefix pos s ts r : Tokenize live acc pos s ts r ->
    exists ts' r', Munch live acc pos s (ts ++ ts') r'.
  Proof.
    induction 1 as [pos|pos u v a ts r Hu Hn H IH|pos u v a Hu Hn|pos c v ts r Hc Hn H IH|pos c v Hn Hc].
    - exists [], []. constructor.
    - destruct IH as (ts' & r' & IH). exists ts', r'. simpl. apply MTok; auto.
    - destruct (munch_total (length v) v (pos + length u)) as (ts' & r' & H); auto.
      exists ts', r'. simpl. apply MTok; auto.
    - destruct IH as (ts' & r' & IH). exists ts', r'. apply MSkip; auto.
    - exists [], (c :: v). apply MStop; auto.
  Qed.

  (** They are all of it when every live end of the input is itself a token. *)
  Lemma tokenize_munch pos s ts r : Tokenize live acc pos s ts r ->
    (forall a b, s = a ++ b -> b <> [] -> live b -> exists i, acc b i) -> Munch live acc pos s ts r.
  Proof.
    induction 1 as [pos|pos u v a ts r Hu Hn H IH|pos u v a Hu Hn|pos c v ts r Hc Hn H IH|pos c v Hn Hc]; intros He.
    - constructor.
    - apply MTok; auto. apply IH. intros x b -> Hb. apply (He (u ++ x)); auto. rewrite app_assoc; auto.
    - destruct (He [] (u ++ v)) as [i Hi]; auto.
      { destruct Hu as (Hu & _). destruct u; [congruence|discriminate]. }
      destruct Hu as (H1 & H2 & H3). pose proof (H3 (u ++ v) [] i ltac:(rewrite app_nil_r; auto) Hi) as Hlen.
      rewrite app_length in Hlen. destruct v; [|simpl in Hlen; lia].
      apply MTok; [split; auto|constructor].
    - apply MSkip; auto. apply IH. intros x b -> Hb. apply (He (c :: x)); auto.
    - apply MStop; auto.
  Qed.

  (** Every token returned is a longest match where it starts. *)
  Lemma tokenize_longest pos s ts r : Tokenize live acc pos s ts r ->
    forall p i u, In (p, i, u) ts -> exists a b, s = a ++ u ++ b /\ p = pos + length a /\ longest acc u i (u ++ b).
  Proof.
    induction 1 as [pos|pos u v a ts r Hu Hn H IH|pos u v a Hu Hn|pos c v ts r Hc Hn H IH|pos c v Hn Hc]; intros p i x Hin.
    - destruct Hin.
    - destruct Hin as [E|Hin].
      + injection E as <- <- <-. exists [], v. split; [reflexivity|]. split; [simpl; lia|auto].
      + apply IH in Hin as (a' & b & -> & -> & Hx). exists (u ++ a'), b.
        split; [rewrite app_assoc; auto|]. split; [rewrite app_length; lia|auto].
    - destruct Hin as [E|[]]. injection E as <- <- <-. exists [], v. split; [reflexivity|]. split; [simpl; lia|auto].
    - apply IH in Hin as (a' & b & -> & -> & Hx). exists (c :: a'), b.
      split; [reflexivity|]. split; [simpl; lia|auto].
    - destruct Hin.
  Qed.

  (** What is left unread, and why. *)
  Lemma tokenize_rest pos s ts r : Tokenize live acc pos s ts r ->
    r = [] \/
    (exists c v, r = c :: v /\ no_match acc r /\ ~ skippable live c) \/
    (exists ts' p i u, ts = ts' ++ [(p, i, u)] /\ live (u ++ r)).
  Proof.
    induction 1 as [pos|pos u v a ts r Hu Hn H IH|pos u v a Hu Hn|pos c v ts r Hc Hn H IH|pos c v Hn Hc]; auto.
    - destruct IH as [?|[?|(ts' & p & i & x & -> & Hx)]]; auto.
      right; right. exists ((pos, a, u) :: ts'), p, i, x. auto.
    - right; right. exists [], pos, a, u. auto.
    - right; left. exists c, v. auto.
  Qed.
End MunchFacts.

Lemma tokenize_ext live live' acc acc' :
  (forall w, w <> [] -> (live w <-> live' w)) -> (forall w i, w <> [] -> (acc w i <-> acc' w i)) ->
  forall pos s ts r, Tokenize live acc pos s ts r -> Tokenize live' acc' pos s ts r.
Proof.
  intros Hl Ha pos s ts r H.
  destruct (tokenize_rename live live' acc acc' (fun i => i) Hl) with (2 := H) as (ts' & H' & E).
  - intros w a Hw. rewrite (Ha w a Hw). split; [eauto|]. intros (i & Hi & ->). auto.
  - assert (ts = ts') as ->; auto. rewrite E. clear. induction ts' as [|[[p i] u] l IH]; simpl; auto.
    rewrite IH. auto.
Qed.

Lemma well_nested_lam hs : well_nested hs ->
  forall a b h h', In h hs -> In h' hs -> hir_label h a -> hir_label h' b -> nested_or_disjoint a b.
Proof.
  intros Hn a b h h' Hh Hh' Ha Hb. unfold nested_or_disjoint.
  destruct (intersects a b) eqn:Ei; [|left; exact Ei].
  apply intersects_char in Ei as (c & Hc1 & Hc2). unfold inr_ in *. unfold sub.
  destruct (Hn h h' a b Hh Hh' Ha Hb) as [H|[H|H]]; unfold covers in H.
  - exfalso. apply (H c). auto.
  - pose proof (H (fst a)). pose proof (H (snd a - 1)%N). lia.
  - pose proof (H (fst b)). pose proof (H (snd b - 1)%N). lia.
Qed.

Lemma well_nested_split hs : well_nested hs -> split_refines hs.
Proof.
  intros Hn v E. destruct (laminar_alpha_ok (flat_map written hs)) as (v' & E' & (_ & _ & Hd & _)).
  - intros a b Ha Hb. apply in_flat_map in Ha as (h & Hh & Ha). apply in_flat_map in Hb as (h' & Hh' & Hb).
    apply written_label in Ha, Hb. exact (well_nested_lam hs Hn a b h h' Hh Hh' Ha Hb).
  - pose proof (eq_trans (eq_sym E) E') as Ev. injection Ev as <-. exact Hd.
Qed.

Lemma tame_split hs : tame (flat_map written hs) -> split_refines hs.
Proof.
  intros Ht v E. destruct (remove_overlap_tame (set_of_list (flat_map written hs))) as (v' & E' & _ & Href).
  - apply set_of_list_sorted.
  - intros a c b Ha Hc Hb. rewrite set_of_list_In in *. apply Ht; auto.
  - pose proof (eq_trans (eq_sym E) E') as Ev. injection Ev as <-.
    intros r p c d Hr Hp Hc Hd Hpc. destruct (Href r p Hr) as [H|H].
    + apply set_of_list_In. exact Hp.
    + unfold disj in H. rewrite intersects_false in H. unfold covers in *. lia.
    + unfold OverlapLaminar.sub in H. unfold covers in *. lia.
Qed.

(** A check of the condition. *)
Definition refines_b (ranges v : list (N * N)) : bool :=
  forallb (fun r => forallb (fun p => is_disjoint r p || (matches p (fst r) && (snd r <=? snd p)%N)) ranges) v.
Definition split_b (hs : list hir) : bool :=
  match remove_overlap (set_of_list (flat_map written hs)) with Ok v => refines_b (flat_map written hs) v | _ => true end.
Lemma refines_b_ok ranges v : refines_b ranges v = true ->
  forall r p c d, In r v -> In p ranges -> covers r c -> covers r d -> covers p c -> covers p d.
Proof.
  intros H r p c d Hr Hp. unfold refines_b in H. rewrite forallb_forall in H. specialize (H r Hr). rewrite forallb_forall in H.
  specialize (H p Hp). unfold covers. apply orb_true_iff in H as [H|H].
  - apply negb_true_iff in H. rewrite intersects_false in H. lia.
  - unfold matches in H. rewrite !andb_true_iff, !N.leb_le, N.ltb_lt in H. lia.
Qed.
Lemma split_b_ok hs : split_b hs = true -> split_refines hs.
Proof. intros H v E. unfold split_b in H. rewrite E in H. apply refines_b_ok; auto. Qed.

(** A check of [productive]. *)
Fixpoint productive_hb (h : hir) : bool :=
  match h with
  | HClass rs => negb (match rs with [] => true | _ => false end) && forallb (fun r => (fst r <=? snd r)%N) rs
  | HRep _ h | HGroup h => productive_hb h
  | HConcat hs => forallb productive_hb hs
  | HAlt hs => negb (match hs with [] => true | _ => false end) && forallb productive_hb hs
  | _ => true
  end.
Lemma productive_hb_ok h : productive_hb h = true -> productive h.
Proof.
  induction h as [|c|rs| | |k h IH|h IH|hs IH|hs IH] using hir_ind'; intros H x Hx; cbn [productive_hb] in H.
  - inversion Hx; subst; exact I.
  - inversion Hx; subst; exact I.
  - inversion Hx; subst. apply andb_true_iff in H as [H1 H2]. split; [destruct rs; discriminate|].
    intros lo hi Hi. rewrite forallb_forall in H2. apply H2 in Hi. apply N.leb_le in Hi. exact Hi.
  - inversion Hx; subst; exact I.
  - inversion Hx; subst; exact I.
  - inversion Hx; subst; [exact I|]. apply IH; auto.
  - inversion Hx; subst; [exact I|]. apply IH; auto.
  - inversion Hx; subst; [exact I|]. rewrite forallb_forall in H. rewrite Forall_forall in IH. eapply IH; eauto.
  - apply andb_true_iff in H as [H1 H2]. inversion Hx; subst; [destruct hs; discriminate|].
    rewrite forallb_forall in H2. rewrite Forall_forall in IH. eapply IH; eauto.
Qed.

(** ** Summary lemmas *)


Lemma token_of_ascii tokens input x : ascii input ->
  (exists a b, input = a ++ snd x ++ b /\ fst (fst x) = length a) -> snd (fst x) < length tokens ->
  token_of tokens input x = Ok (plain_token tokens x).
Proof.
  destruct x as [[pos i] u]. simpl. intros Ha (a & b & -> & ->) Hi.
  destruct (nth_error tokens i) as [[td h]|] eqn:E; [|apply nth_error_None in E; lia].
  destruct (td_with_val td); auto. rewrite byte_slice_ascii; auto.
  rewrite app_assoc in Ha. apply Forall_app in Ha. apply Ha.
Qed.

Lemma byte_slice_panic s a b : match byte_slice s a b with Ok _ => True | Panic PSlice => True | _ => False end.
Proof.
  unfold byte_slice. destruct (b <? a); auto. destruct (split_byte s a) as [[x y]|]; auto.
  destruct (split_byte y (b - a)) as [[? ?]|]; auto.
Qed.

(** No hypothesis on the definitions. *)
Lemma lex_any tokens L input : from_tokens tokens = Ok L ->
  exists ts r, Layout 0 input (map drop_idx ts) r /\
    (forall p i u, In (p, i, u) ts -> u <> [] /\ exists td h, nth_error tokens i = Some (td, h) /\ Lang h u) /\
    lex L input = mapM (token_of tokens input) ts /\
    (ascii input -> lex L input = Ok (map (plain_token tokens) ts)).
Proof.
  intros HL. destruct (lex_tokens_gen tokens L HL) as (lv & ac & Hs & Ht & _).
  destruct (Ht input) as (ts & r & _ & HT & El & _). exists ts, r.
  pose proof (tokenize_layout _ _ _ _ _ _ HT) as Hlay.
  assert (Hin : forall p i u, In (p, i, u) ts -> u <> [] /\ exists td h, nth_error tokens i = Some (td, h) /\ Lang h u).
  { intros p i u Hin. destruct (tokenize_longest _ _ _ _ _ _ HT p i u Hin) as (a & b & _ & _ & (H1 & H2 & _)).
    split; auto. apply Hs in H2 as (h & Hh & Hl). rewrite nth_error_map in Hh.
    destruct (nth_error tokens i) as [[td h']|]; [|discriminate]. injection Hh as ->. eauto. }
  split; auto. split; auto. split; auto.
  intros Ha. rewrite El. apply mapM_map. intros [[p i] u] Hx. apply token_of_ascii; auto.
  - simpl. destruct (layout_pos _ _ _ _ Hlay p u) as (a & b & -> & -> & _).
    + apply (in_map drop_idx) in Hx. exact Hx.
    + exists a, b. auto.
  - simpl. destruct (Hin p i u Hx) as (_ & td & h & E & _). apply nth_error_lt in E. auto.
Qed.

(** Where reading ends, for ASCII texts. *)
Lemma lex_all tokens L input : from_tokens tokens = Ok L ->
  exists (lv : list N -> Prop) (ac : list N -> nat -> Prop) ts r i, Tokenize lv ac 0 input ts r /\ lex L input = mapM (token_of tokens input) ts /\
    (ascii input -> lex L input = Ok (map (plain_token tokens) ts)) /\ char_run L input (map (plain_token tokens) ts) i /\
    ((exists out, lex L input = Ok out) -> ends_at L input i) /\ i <= length input /\ halts lv input ts r (length input - i) /\
    (forall w j, ac w j -> exists h, nth_error (map snd tokens) j = Some h /\ Lang h w) /\
    (split_refines (map snd tokens) ->
     (forall w j, w <> [] -> (ac w j <-> first_match (map snd tokens) w j)) /\
     ((forall h, In h (map snd tokens) -> productive h) -> forall w, w <> [] -> (lv w <-> viable (map snd tokens) w))).
Proof.
  intros HL. destruct (lex_tokens_gen tokens L HL) as (lv & ac & Hs & Ht & _ & _ & Hex).
  destruct (Ht input) as (ts & r & i & HT & El & Hc & He & Hle & Hh). exists lv, ac, ts, r, i. split; auto. split; auto. split.
  { intros Ha. rewrite El. apply mapM_map. intros [[p j] u] Hx.
    destruct (tokenize_longest _ _ _ _ _ _ HT p j u Hx) as (a & b & E & Ep & (_ & Hac & _)). apply Hs in Hac as (h & Hh' & _).
    apply token_of_ascii; auto; simpl; [exists a, b; auto|]. apply nth_error_lt in Hh'. rewrite map_length in Hh'. auto. }
  auto 8.
Qed.

Lemma lex_exact tokens L input : from_tokens tokens = Ok L -> split_refines (map snd tokens) ->
  exists lv ts r, Tokenize lv (first_match (map snd tokens)) 0 input ts r /\
    lex L input = mapM (token_of tokens input) ts /\
    (ascii input -> lex L input = Ok (map (plain_token tokens) ts)) /\
    (forall w, w <> [] -> lv w \/ ~ lv w) /\
    (forall w, w <> [] -> (exists i, first_match (map snd tokens) w i) \/ forall i, ~ first_match (map snd tokens) w i) /\
    ((forall h, In h (map snd tokens) -> productive h) -> forall w, w <> [] -> (lv w <-> viable (map snd tokens) w)).
Proof.
  intros HL Hn. destruct (lex_tokens_gen tokens L HL) as (lv & ac & Hs & Ht & Hd1 & Hd2 & Hex).
  destruct (Hex Hn) as [Hac Hlv]. destruct (Ht input) as (ts & r & _ & HT & El & _).
  assert (HT' : Tokenize lv (first_match (map snd tokens)) 0 input ts r).
  { revert HT. apply tokenize_ext; auto. tauto. }
  exists lv, ts, r. split; auto. split; auto. split; [|split; [|split]]; auto.
  - intros Ha. rewrite El. apply mapM_map. intros [[p i] u] Hx.
    destruct (tokenize_longest _ _ _ _ _ _ HT' p i u Hx) as (a & b & E & Ep & (_ & ((h & Hh & _) & _) & _)).
    apply token_of_ascii; auto.
    + simpl. exists a, b. auto.
    + simpl. apply nth_error_lt in Hh. rewrite map_length in Hh. auto.
  - intros w Hw. destruct (Hd2 w) as [[i Hi]|H].
    + left. exists i. apply Hac; auto.
    + right. intros i Hi. apply (H i). apply Hac; auto.
Qed.

(** ** The NFAs the library builds *)

(** One regex (nfa.rs:65-91), or a list of token definitions (lex.rs:70-104). *)
Inductive built : nfa -> Prop :=
| built_regex h n : from_regex h = Ok n -> built n
| built_lexer tokens n tmap : lex_nfa tokens = Ok (n, tmap) -> built n.

Lemma built_ok n : built n -> wf n /\ START_IDX < nst n /\ forall e, In e (edges n) -> e_to e <> START_IDX.
Proof.
  intros [h m E|tokens m tmap E].
  - apply from_regex_inv in E as []. split; auto. split; auto. unfold START_IDX; lia.
  - apply lex_nfa_ok in E as (ns & HF & -> & _).
    assert (HR : Forall (fun n => exists h, regex_nfa h n) ns).
    { clear - HF. induction HF; constructor; auto. exists (snd x). apply from_regex_inv; auto. }
    assert (W1 : Forall wf ns) by (eapply Forall_impl; [|exact HR]; intros k (h & []); auto).
    assert (W2 : Forall (fun n => 2 <= nst n) ns) by (eapply Forall_impl; [|exact HR]; intros k (h & []); auto).
    assert (W3 : Forall (fun n => forall e, In e (edges n) -> e_to e <> START_IDX) ns)
      by (eapply Forall_impl; [|exact HR]; intros k (h & []); auto).
    split; [apply asm_wf; auto|]. split; [apply asm_start|]. apply asm_no_in; auto.
Qed.

Lemma mapM_ok {A B} (f : A -> res B) l : (forall a, In a l -> exists b, f a = Ok b) -> exists r, mapM f l = Ok r.
Proof.
  induction l as [|a l IH]; intros H; simpl; eauto. destruct (H a) as [b ->]; [left; auto|]. simpl.
  destruct IH as [r ->]; [intros; apply H; right; auto|]. simpl; eauto.
Qed.

Lemma lex_nfa_total tokens : (forall td h, In (td, h) tokens -> exists n, from_regex h = Ok n) ->
  exists n tmap, lex_nfa tokens = Ok (n, tmap).
Proof.
  intros H. unfold lex_nfa.
  destruct (mapM_ok (fun t : token_def * hir => let* n := from_regex (snd t) in Ok (fst t, n)) tokens) as [wn Ew].
  { intros [td h] Hin. destruct (H _ _ Hin) as [n En]. simpl. rewrite En. simpl; eauto. }
  rewrite Ew. simpl.
  replace (map (fun t : token_def * nfa => length (states (snd t))) wn) with (map nst (map snd wn))
    by (rewrite map_map; reflexivity).
  rewrite template_eq. simpl. destruct (from_tokens_loop 1 (length wn) wn []) as [ns tm]. eauto.
Qed.

Lemma from_tokens_total tokens :
  (exists L, from_tokens tokens = Ok L) <-> (forall td h, In (td, h) tokens -> exists n, from_regex h = Ok n).
Proof.
  split.
  - intros [L HL] td h Hin. unfold from_tokens in HL. apply bind_ok in HL as ((Nf & tmap) & E1 & _).
    apply lex_nfa_ok in E1 as (ns & HF & _). apply In_nth_error in Hin as [i Hi].
    destruct (Forall2_nth_l _ _ _ _ _ HF Hi) as (n & _ & Hn). eauto.
  - intros H. destruct (lex_nfa_total tokens H) as (n & tmap & E). unfold from_tokens. rewrite E. simpl.
    destruct (built_ok n (built_lexer _ _ _ E)) as (Hw & Hs & _).
    destruct (from_nfa_ok n Hw Hs) as (al & d & ds & _ & -> & _). simpl. eauto.
Qed.

Lemma built_split n : built n ->
  (forall al, remove_overlap (set_of_list (edge_labels (edges n))) = Ok al ->
     forall r p c d, In r al -> In p (edge_labels (edges n)) -> covers r c -> covers r d -> covers p c -> covers p d) ->
  exists al, remove_overlap (set_of_list (edge_labels (edges n))) = Ok al /\ alpha_ok (edge_labels (edges n)) al.
Proof.
  intros _ H. destruct (remove_overlap_covered (set_of_list (edge_labels (edges n)))) as (al & E & _).
  exists al. split; auto. apply split_alpha_ok; auto. exact (H al E).
Qed.

(** Every character of a word of the language is in a range written in the regex. *)
Lemma lang_chars : forall h w, Lang h w -> forall c, In c w -> exists m, hir_label h m /\ covers m c.
Proof.
  assert (Hup : forall (h h' : hir) m, (forall x, subterm x h -> subterm x h') -> hir_label h m -> hir_label h' m).
  { intros h h' m H (x & Hx & Hm). exists x. auto. }
  induction h as [|a|rs| | |k h IH|h IH|hs IH|hs IH] using hir_ind'; intros w Hw c Hc.
  - inversion Hw; subst. destruct Hc.
  - inversion Hw; subst. destruct Hc as [->|[]]. exists (c, (c + 1)%N). split; [|unfold covers; simpl; lia].
    exists (HLit c). split; [constructor|auto].
  - inversion Hw as [| |rs' lo hi c' Hin Hr| | | | | | | | | |]; subst. destruct Hc as [<-|[]].
    exists (lo, (hi + 1)%N). split; [|unfold covers; simpl; lia]. exists (HClass rs). split; [constructor|eauto].
  - inversion Hw.
  - inversion Hw.
  - assert (G : exists w', Lang h w' /\ In c w').
    { assert (Star : forall w, Lang (HRep ZeroOrMore h) w -> In c w -> exists w', Lang h w' /\ In c w').
      { clear. intros w H. remember (HRep ZeroOrMore h) as g eqn:Eg. revert Eg.
        induction H; intros Eg Hc; try discriminate.
        - destruct Hc.
        - injection Eg as ->. apply in_app_or in Hc as [Hc|Hc]; [eauto|auto]. }
      inversion Hw as [| | |h0|h0 w0 H1|h0|h0 w1 w2 H1 H2|h0 w1 w2 H1 H2|h0 lo hi ws Hf H1 H2| | | |]; subst.
      - destruct Hc.
      - eauto.
      - destruct Hc.
      - apply in_app_or in Hc as [Hc|Hc]; eauto.
      - apply in_app_or in Hc as [Hc|Hc]; eauto.
      - apply in_concat in Hc as (x & Hx & Hc). rewrite Forall_forall in Hf. eauto. }
    destruct G as (w' & Hw' & Hc'). destruct (IH w' Hw' c Hc') as (m & Hm & Hcm). exists m. split; auto.
    revert Hm. apply Hup. intros x. apply sub_rep.
  - inversion Hw; subst. destruct (IH w H0 c Hc) as (m & Hm & Hcm). exists m. split; auto.
    revert Hm. apply Hup. intros x. apply sub_group.
  - assert (G : exists h w', In h hs /\ Lang h w' /\ In c w').
    { clear IH. revert w Hw Hc. induction hs as [|h hs IHs]; intros w Hw Hc;
        inversion Hw as [| | | | | | | | | | |h' hs' w1 w2 H1 H2 Ea Eb|]; subst; [destruct Hc|].
      apply in_app_or in Hc as [Hc|Hc]; [exists h, w1; simpl; auto|].
      destruct (IHs w2 H2 Hc) as (h' & w' & A & B). exists h', w'. simpl; auto. }
    destruct G as (h & w' & Hin & Hw' & Hc'). rewrite Forall_forall in IH.
    destruct (IH h Hin w' Hw' c Hc') as (m & Hm & Hcm). exists m. split; auto.
    revert Hm. apply Hup. intros x. apply sub_concat; auto.
  - inversion Hw as [| | | | | | | | | | | |h hs' w' Hin HL]; subst. rewrite Forall_forall in IH.
    destruct (IH h Hin w HL c Hc) as (m & Hm & Hcm). exists m. split; auto.
    revert Hm. apply Hup. intros x. apply sub_alt; auto.
Qed.
