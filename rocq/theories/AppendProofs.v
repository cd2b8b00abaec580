(** What more text can change: proofs for PropsAppend.v. *)
From Verif Require Import Base Regex Nfa NfaProofs Overlap OverlapProofs OverlapLaminar Dfa DfaProofs
  Lex LexSpec LexLoop NfaLive LexNfa LexProofs Utf8Proofs.

(** ** Reading a text and then more *)
Section More.
  Variable live : list N -> Prop.
  Variable acc : list N -> nat -> Prop.
  Hypothesis Hpre : forall u v, live (u ++ v) -> live u.
  Hypothesis Hacc : forall w i, acc w i -> live w.
  Hypothesis Hdet : forall w i j, acc w i -> acc w j -> i = j.

  Lemma longest_more u i v b : longest acc u i (u ++ v) -> ~ live (u ++ v) -> longest acc u i (u ++ v ++ b).
  Proof using Hpre Hacc.
    intros (H1 & H2 & H3) Hn. split; auto. split; auto. intros x y j E Hx. rewrite app_assoc in E.
    destruct (prefix_cases _ _ _ _ E) as [(z & -> & _)|(z & Ez & _)].
    - exfalso. apply Hn. apply Hacc in Hx. eapply Hpre; eauto.
    - eapply (H3 x z j); auto.
  Qed.
  Lemma no_match_more s b : no_match acc s -> ~ live s -> no_match acc (s ++ b).
  Proof using Hpre Hacc.
    intros H Hn u v i E Hu Ha. destruct (prefix_cases _ _ _ _ E) as [(z & -> & _)|(z & Ez & _)].
    - apply Hn. apply Hacc in Ha. eapply Hpre; eauto.
    - eapply (H u z i); eauto.
  Qed.

  (** The tokens read, except perhaps the last, are the first tokens of the longer text. *)
  Lemma tokenize_more pos a ts r : Tokenize live acc pos a ts r -> forall b ts' r', Tokenize live acc pos (a ++ b) ts' r' ->
    exists t1 t2 t2', ts = t1 ++ t2 /\ ts' = t1 ++ t2' /\ length t2 <= 1.
  Proof using Hpre Hacc Hdet.
    induction 1 as [pos|pos u v i ts r Hu Hn H IH|pos u v i Hu Hn|pos c v ts r Hc Hn H IH|pos c v Hn Hc]; intros b ts' r' H'.
    - exists [], [], ts'. auto.
    - rewrite <- app_assoc in H'. pose proof (longest_more _ _ _ b Hu Hn) as Hu'.
      assert (Hn' : ~ live (u ++ v ++ b)) by (rewrite app_assoc; intros Hx; apply Hn; eapply Hpre; eauto).
      remember (u ++ v ++ b) as s eqn:Es. revert Es.
      destruct H' as [pos|pos x y j ts' r' Hx Hny H'|pos x y j Hx Hny|pos c y ts' r' Hcy Hny H'|pos c y Hny Hcy]; intros Es.
      + destruct u; [|discriminate]. exfalso; apply Hu; auto.
      + destruct (longest_unique acc x j u i y (v ++ b) Hdet Es Hx) as (-> & -> & ->); [rewrite <- Es; exact Hu'|].
        destruct (IH b ts' r' H') as (t1 & t2 & t2' & -> & -> & Hl). exists ((pos, i, u) :: t1), t2, t2'. auto.
      + contradiction.
      + exfalso. eapply no_match_longest; [exact Hny|exact Hu'|exact Es].
      + exfalso. eapply no_match_longest; [exact Hny|exact Hu'|exact Es].
    - exists [], [(pos, i, u)], ts'. auto.
    - assert (Hl : ~ live (c :: v)) by (intros Hx; apply Hc; apply (Hpre [c] v); exact Hx).
      pose proof (no_match_more (c :: v) b Hn Hl) as Hm. cbn [app] in *. remember (c :: v ++ b) as s eqn:Es. revert Es.
      destruct H' as [pos|pos x y j ts' r' Hx Hny H'|pos x y j Hx Hny|pos d y ts' r' Hcy Hny H'|pos d y Hny Hcy]; intros Es.
      + discriminate.
      + exfalso. eapply no_match_longest; [exact Hm|exact Hx|reflexivity].
      + exfalso. eapply no_match_longest; [exact Hm|exact Hx|reflexivity].
      + injection Es as -> ->. eapply IH; eauto.
      + injection Es as -> ->. contradiction.
    - exists [], [], ts'. auto.
  Qed.

  (** If reading stopped before the end of the text, nothing changes. *)
  Lemma tokenize_stopped pos a ts r : Tokenize live acc pos a ts r -> r <> [] -> ~ live r ->
    (forall t1 pre i u, ts = t1 ++ [(pos + length pre, i, u)] -> a = pre ++ u ++ r -> ~ live (u ++ r)) ->
    forall b, Tokenize live acc pos (a ++ b) ts (r ++ b).
  Proof using Hpre Hacc.
    induction 1 as [pos|pos u v i ts r Hu Hn H IH|pos u v i Hu Hn|pos c v ts r Hc Hn H IH|pos c v Hn Hc]; intros Hr Hlr Hlast b.
    - congruence.
    - rewrite <- app_assoc. apply TkTok.
      + apply longest_more; auto.
      + rewrite app_assoc. intros Hx. apply Hn. eapply Hpre; eauto.
      + apply IH; auto. intros t1 pre j x Et Ev. apply (Hlast ((pos, i, u) :: t1) (u ++ pre) j x).
        * rewrite Et. cbn [app]. rewrite app_length, Nat.add_assoc. reflexivity.
        * rewrite Ev, <- app_assoc. reflexivity.
    - exfalso. apply (Hlast [] [] i u); auto. cbn. rewrite Nat.add_0_r. reflexivity.
    - cbn [app]. apply TkSkip; auto.
      + change (c :: v ++ b) with ((c :: v) ++ b). apply no_match_more; auto. intros Hx. apply Hc. apply (Hpre [c] v). exact Hx.
      + apply IH; auto. intros t1 pre j x Et Ev. apply (Hlast t1 (c :: pre) j x).
        * rewrite Et. cbn [length]. rewrite Nat.add_succ_r. reflexivity.
        * rewrite Ev. reflexivity.
    - cbn [app]. apply TkStop; auto. change (c :: v ++ b) with ((c :: v) ++ b). apply no_match_more; auto.
  Qed.
  Lemma tokenize_halted a ts r : Tokenize live acc 0 a ts r -> ~ unfinished live a ts r -> forall b, Tokenize live acc 0 (a ++ b) ts (r ++ b).
  Proof using Hpre Hacc.
    intros H Hn b. eapply tokenize_stopped; eauto.
    - intros ->. apply Hn. left. reflexivity.
    - intros Hx. apply Hn. right. left. exact Hx.
    - intros t1 pre i u Et Ea Hx. apply Hn. right. right. exists t1, pre, i, u. auto.
  Qed.
End More.

(** ** Byte offsets *)
Lemma utf8_pos c : 1 <= utf8_len1 c.
Proof. unfold utf8_len1. repeat (match goal with |- context [if ?b then _ else _] => destruct b end); lia. Qed.
Lemma split_byte_app s : forall k b, k <= length s -> split_byte (s ++ b) k = match split_byte s k with Some (x, y) => Some (x, y ++ b) | None => None end.
Proof.
  induction s as [|c s IH]; intros [|k] b Hk; cbn [length] in Hk; try reflexivity; try lia; [destruct b; reflexivity|].
  cbn [split_byte app]. pose proof (utf8_pos c). destruct (utf8_len1 c <=? S k); [|reflexivity].
  rewrite IH by lia. destruct (split_byte s (S k - utf8_len1 c)) as [[x y]|]; reflexivity.
Qed.
Lemma split_byte_rest s : forall k x y, split_byte s k = Some (x, y) -> length s <= length y + k.
Proof.
  induction s as [|c s IH]; intros [|k] x y E; cbn [split_byte] in E; try discriminate; try (injection E as <- <-; cbn [length]; lia).
  pose proof (utf8_pos c). destruct (utf8_len1 c <=? S k) eqn:El; [|discriminate]. apply Nat.leb_le in El.
  destruct (split_byte s (S k - utf8_len1 c)) as [[x' y']|] eqn:E1; [|discriminate]. injection E as <- <-. apply IH in E1. cbn [length]. lia.
Qed.
Lemma byte_slice_app s p q b : q <= length s -> byte_slice (s ++ b) p q = byte_slice s p q.
Proof.
  intros Hq. unfold byte_slice. destruct (q <? p) eqn:E; [reflexivity|]. apply Nat.ltb_ge in E.
  rewrite split_byte_app by lia. destruct (split_byte s p) as [[x y]|] eqn:E1; [|reflexivity].
  pose proof (split_byte_rest _ _ _ _ E1). rewrite split_byte_app by lia. destruct (split_byte y (q - p)) as [[x' y']|]; reflexivity.
Qed.
Lemma token_of_app tokens a b x : fst (fst x) + length (snd x) <= length a -> token_of tokens (a ++ b) x = token_of tokens a x.
Proof.
  destruct x as [[p i] u]. cbn [fst snd]. intros H. unfold token_of. destruct (nth_error tokens i) as [[td h]|]; [|reflexivity].
  destruct (td_with_val td); [|reflexivity]. rewrite byte_slice_app by exact H. reflexivity.
Qed.
Lemma tokens_of_app lv ac tokens a b ts r : Tokenize lv ac 0 a ts r -> forall t1, incl t1 ts ->
  mapM (token_of tokens (a ++ b)) t1 = mapM (token_of tokens a) t1.
Proof.
  intros HT. induction t1 as [|x t1 IH]; intros Hi; [reflexivity|]. cbn [mapM]. rewrite token_of_app.
  - rewrite IH; [reflexivity|]. intros y Hy. apply Hi. right. exact Hy.
  - destruct x as [[p i] u]. destruct (tokenize_longest _ _ _ _ _ _ HT p i u (Hi _ (or_introl eq_refl))) as (c & d & -> & -> & _).
    cbn [fst snd]. rewrite !app_length. lia.
Qed.

Lemma mapM_split {A B} (f : A -> res B) x : forall y out, mapM f (x ++ y) = Ok out ->
  exists o1 o2, out = o1 ++ o2 /\ mapM f x = Ok o1 /\ mapM f y = Ok o2.
Proof.
  induction x as [|a x IH]; intros y out E; cbn [app] in E.
  - exists [], out. auto.
  - cbn [mapM] in *. apply bind_ok in E as (v & Ev & E). apply bind_ok in E as (o & Eo & E). injection E as <-.
    destruct (IH _ _ Eo) as (o1 & o2 & -> & E1 & E2). exists (v :: o1), o2. rewrite Ev. cbn [bind]. rewrite E1. auto.
Qed.
Lemma mapM_len {A B} (f : A -> res B) x : forall out, mapM f x = Ok out -> length out = length x.
Proof.
  induction x as [|a x IH]; intros out E; cbn [mapM] in E; [injection E as <-; reflexivity|].
  apply bind_ok in E as (v & _ & E). apply bind_ok in E as (o & Eo & E). injection E as <-. cbn [length]. f_equal. auto.
Qed.

(** ** Characters of no definition *)
Lemma live_written tokens L : from_tokens tokens = Ok L ->
  forall w, liveD L w -> Forall (fun c => exists r, In r (flat_map written (map snd tokens)) /\ covers r c) w.
Proof.
  intros HL. destruct (lexer_parts tokens L HL) as
    (ns & Nf & al & ds & HF & ENf & Hw & Hst & Hno & Ed & Eal & Hok & _ & _ & Hacc & Hlang & Hlab & Hlv).
  assert (Hedge : forall e c, In e (d_edges (lx_dfa L)) -> matches (de_label e) c = true -> exists r, In r (flat_map written (map snd tokens)) /\ covers r c).
  { intros e c Hin Hm. destruct (dfa_ok_edge _ _ _ _ _ Hok Hin) as (q & es & _ & Hrow & Hin').
    destruct (row_In _ _ _ _ _ _ _ Hrow Hin') as (u & Hl & _).
    destruct (remove_overlap_covered (set_of_list (edge_labels (edges Nf)))) as (al' & Ea & _ & Hcov).
    rewrite Eal in Ea. injection Ea as <-.
    destruct (proj1 (Hcov c)) as (r & Hr & Hrc).
    { exists (de_label e). split; auto. apply matches_inr in Hm. exact Hm. }
    rewrite set_of_list_In in Hr. apply Hlab in Hr. exists r. split; auto. }
  intros w (t & Ht). apply (follows_d_run _ _ _ _ _ _ Hok) in Ht. clear - Ht Hedge. revert Ht. generalize 0.
  induction w as [|c w IH]; intros s Hf; constructor.
  - inversion Hf as [|? ? ? ? l1 e l2 El Hfr Hm Hmin Hr]; subst. apply (Hedge e); auto. rewrite El. apply in_or_app; simpl; auto.
  - inversion Hf as [|? ? ? ? l1 e l2 El Hfr Hm Hmin Hr]; subst. eauto.
Qed.

(** ** The lexer *)
Section LexMore.
  Variables (tokens : list (token_def * hir)) (L : lexer).
  Hypothesis HL : from_tokens tokens = Ok L.

  Lemma lex_more a x : lex L a = Ok x -> forall b y, lex L (a ++ b) = Ok y -> exists y2, y = firstn (pred (length x)) x ++ y2.
  Proof using HL.
    intros Ea b y Eb. destruct (lex_tokens_live tokens L HL) as (lv & ac & (Elv & Hl & Hd) & _ & Ht & _). subst lv.
    destruct (Ht a) as (ts & r & i & HT & El & _). destruct (Ht (a ++ b)) as (ts' & r' & i' & HT' & El' & _).
    destruct (tokenize_more _ _ (liveD_prefix L) Hl Hd _ _ _ _ HT _ _ _ HT') as (t1 & t2 & t2' & E1 & E2 & Hlen).
    rewrite Ea in El. rewrite Eb in El'. rewrite E1 in El. rewrite E2 in El'. symmetry in El, El'.
    apply mapM_split in El as (o1 & o2 & -> & M1 & M2). apply mapM_split in El' as (o1' & o2' & -> & M1' & M2').
    rewrite (tokens_of_app _ _ tokens a b _ _ HT) in M1' by (rewrite E1; apply incl_appl, incl_refl).
    rewrite M1 in M1'. injection M1' as <-. apply mapM_len in M2. rewrite app_length.
    destruct o2 as [|z [|z' o2]]; cbn [length] in *; [|rewrite Nat.add_1_r|lia].
    - rewrite Nat.add_0_r, app_nil_r. exists (skipn (pred (length o1)) o1 ++ o2'). rewrite app_assoc, firstn_skipn. reflexivity.
    - cbn [pred]. rewrite firstn_app, Nat.sub_diag, firstn_all. cbn [firstn]. rewrite app_nil_r. eauto.
  Qed.

  Lemma lex_halted (lv : list N -> Prop) (ac : list N -> nat -> Prop) : lv = liveD L -> (forall w i, ac w i -> lv w) -> (forall w i j, ac w i -> ac w j -> i = j) ->
    (forall input, exists ts r, Tokenize lv ac 0 input ts r /\ lex L input = mapM (token_of tokens input) ts) ->
    forall a ts r, Tokenize lv ac 0 a ts r -> ~ unfinished lv a ts r -> forall b, lex L (a ++ b) = lex L a.
  Proof using HL.
    intros -> Hl Hd Ht a ts r HT Hn b. pose proof (tokenize_halted _ _ (liveD_prefix L) Hl _ _ _ HT Hn b) as HT'.
    destruct (Ht a) as (ts1 & r1 & HT1 & E1). destruct (Ht (a ++ b)) as (ts2 & r2 & HT2 & E2).
    destruct (tokenize_det _ _ Hd _ _ _ _ _ _ HT HT1) as [<- _]. destruct (tokenize_det _ _ Hd _ _ _ _ _ _ HT' HT2) as [<- _].
    rewrite E1, E2. apply (tokens_of_app _ _ tokens a b _ _ HT). apply incl_refl.
  Qed.
End LexMore.
