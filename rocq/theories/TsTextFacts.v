(** Facts about the reader of TypeScript text. *)
From Coq Require Import Ascii String Decimal DecimalN DecimalPos DecimalFacts.
From Verif Require Import Base Text TsText.
Local Open Scope N_scope.

Lemma scan_app s a b : scan s (a ++ b)%list = let '(l, s1) := scan s a in let '(l', s2) := scan s1 b in ((l ++ l')%list, s2).
Proof.
  revert s. induction a as [|c a IH]; intros s; simpl.
  - destruct (scan s b). reflexivity.
  - destruct (sstep s c) as [l s1]. rewrite IH. destruct (scan s1 a) as [l1 s2]. destruct (scan s2 b) as [l2 s3].
    rewrite app_assoc. reflexivity.
Qed.
Lemma scan_app_eq s a b l s1 : scan s a = (l, s1) -> scan s (a ++ b)%list = let '(l', s2) := scan s1 b in ((l ++ l')%list, s2).
Proof. intros E. rewrite scan_app, E. reflexivity. Qed.

(** ** Numbers *)

Lemma scan_digits_pos u : forall p, scan (SNum (Npos p)) (digits u) = ([], SNum (Npos (Pos.of_uint_acc u p))).
Proof. induction u as [|u IH|u IH|u IH|u IH|u IH|u IH|u IH|u IH|u IH|u IH]; intros p; [reflexivity|cbn [digits scan]..];
  (match goal with |- context [sstep ?s ?c] => let r := eval cbn in (sstep s c) in change (sstep s c) with r end);
  cbv beta iota; match goal with |- context [scan (SNum (Npos ?q)) _] => rewrite (IH q) end; cbn [app Pos.of_uint_acc]; repeat f_equal; lia. Qed.
Lemma digits_zero u : N.of_uint u = 0 -> scan (SNum 0) (digits u) = ([], SNum 0).
Proof.
  induction u as [|u IH|u IH|u IH|u IH|u IH|u IH|u IH|u IH|u IH|u IH]; intros H; try discriminate H; [reflexivity|].
  cbn [digits scan]. change (sstep (SNum 0) 48) with (@nil tok, SNum 0). cbv beta iota. rewrite IH; auto.
Qed.
Lemma scan_uint u : N.of_uint u <> 0 -> scan SNone (digits u) = ([], SNum (N.of_uint u)).
Proof.
  assert (G : forall u, N.of_uint u <> 0 -> scan (SNum 0) (digits u) = ([], SNum (N.of_uint u))).
  { clear u. induction u as [|u IH|u IH|u IH|u IH|u IH|u IH|u IH|u IH|u IH|u IH]; intros H; [exfalso; apply H; reflexivity|..];
      cbn [digits scan];
      (match goal with |- context [sstep ?s ?c] => let r := eval vm_compute in (sstep s c) in change (sstep s c) with r end);
      cbv beta iota; [rewrite IH; auto|rewrite scan_digits_pos; reflexivity..]. }
  intros H. destruct u; [exfalso; apply H; reflexivity|..]; cbn [digits scan];
      (match goal with |- context [sstep ?s ?c] => let r := eval vm_compute in (sstep s c) in change (sstep s c) with r end);
      cbv beta iota; [rewrite G; auto|rewrite scan_digits_pos; reflexivity..].
Qed.
Lemma scan_dec n : scan SNone (dec n) = ([], SNum n).
Proof.
  unfold dec. destruct (N.eq_dec n 0) as [->|H]; [reflexivity|].
  rewrite scan_uint; rewrite DecimalN.Unsigned.of_to; auto.
Qed.
Lemma dec_digits n : Forall (fun c => is_digit c = true) (dec n).
Proof. unfold dec. induction (N.to_uint n); simpl; constructor; auto. Qed.
Lemma dec_inj n m : dec n = dec m -> n = m.
Proof. intros H. pose proof (scan_dec n) as E. rewrite H, scan_dec in E. congruence. Qed.
Lemma decn_inj n m : decn n = decn m -> n = m.
Proof. intros H. apply dec_inj in H. lia. Qed.
Lemma dec_not_nil n : dec n <> [].
Proof. intros H. pose proof (scan_dec n) as E. rewrite H in E. discriminate. Qed.

(** ** Words and quoted texts *)

Definition word_char (c : N) : bool := is_letter c || is_digit c.
Definition wordy (w : list N) : Prop := match w with [] => False | c :: r => is_letter c = true /\ Forall (fun c => word_char c = true) r end.
Definition quotable (q : N) (s : list N) : Prop := Forall (fun c => c <> q /\ c <> 92 /\ c <> 10 /\ c <> 13) s.

Lemma scan_more w s : Forall (fun c => word_char c = true) s -> scan (SWord w) s = ([], SWord (w ++ s)%list).
Proof.
  intros H. revert w. induction H as [|c s Hc _ IH]; intros w; [rewrite app_nil_r; reflexivity|].
  cbn [scan sstep]. unfold word_char in Hc. rewrite Hc, IH. rewrite <- app_assoc. reflexivity.
Qed.
Lemma letter_not_digit c : is_letter c = true -> is_digit c = false.
Proof.
  unfold is_letter, is_digit. intros H. apply andb_false_iff.
  destruct (N.leb_spec 48 c) as [Ha|Ha]; [|auto]. destruct (N.leb_spec c 57) as [Hb|Hb]; [|auto]. exfalso.
  repeat (apply orb_true_iff in H as [H|H]); try (apply andb_true_iff in H as [H1 H2]; apply N.leb_le in H1, H2; lia);
    try (apply N.eqb_eq in H; lia). apply N.leb_le in H. lia.
Qed.
Lemma scan_word w : wordy w -> scan SNone w = ([], SWord w).
Proof.
  destruct w as [|c w]; [intros []|]. intros [Hc Hw]. cbn [scan sstep]. unfold sstart. rewrite (letter_not_digit c Hc), Hc.
  rewrite scan_more; auto.
Qed.
Lemma dec_word w n : scan (SWord w) (dec n) = ([], SWord (w ++ dec n)%list).
Proof. apply scan_more. eapply Forall_impl; [|apply dec_digits]. intros c H. unfold word_char. rewrite H. apply orb_true_r. Qed.
Lemma wordy_chars w : wordy w -> Forall (fun c => word_char c = true) w.
Proof. destruct w as [|c w]; [intros []|]. intros [H1 H2]. constructor; auto. unfold word_char. rewrite H1. reflexivity. Qed.
Lemma wordy_app w s : wordy w -> Forall (fun c => word_char c = true) s -> wordy (w ++ s)%list.
Proof. destruct w as [|c w]; [intros []|]. intros [H1 H2] H3. split; auto. apply Forall_app. auto. Qed.
Lemma scan_quo q a s : quotable q s -> scan (SStr q a) s = ([], SStr q (a ++ s)%list).
Proof.
  intros H. revert a. induction H as [|c s (H1 & H2 & H3 & H4) _ IH]; intros a; [rewrite app_nil_r; reflexivity|].
  cbn [scan sstep]. destruct (N.eqb_spec c q); [congruence|]. destruct (N.eqb_spec c 92); [congruence|].
  destruct (N.eqb_spec c 10); [congruence|]. destruct (N.eqb_spec c 13); [congruence|]. cbn [andb orb]. rewrite IH, <- app_assoc. reflexivity.
Qed.
Lemma unq_scan q s s' : unq q s = Some s' <-> scan (SStr q []) s = ([], SStr q s').
Proof.
  unfold unq. destruct (scan (SStr q []) s) as [[|t l] st].
  - destruct st; try (split; discriminate). destruct (N.eqb_spec q0 q) as [->|Hn]; split; intros H; congruence.
  - split; discriminate.
Qed.
Lemma quotable_unq q s : quotable q s -> unq q s = Some s.
Proof. intros H. apply unq_scan. apply (scan_quo q [] s H). Qed.
Lemma wordy_quotable q w : is_quote q = true -> Forall (fun c => word_char c = true) w -> quotable q w.
Proof.
  intros Hq H. eapply Forall_impl; [|exact H]. intros c Hc. simpl.
  assert (G : forall d, In d [34; 39; 96; 92; 10; 13] -> c <> d).
  { intros d Hd ->. simpl in Hd. repeat (destruct Hd as [<-|Hd]; [discriminate Hc|]). destruct Hd. }
  split; [|split; [|split]; apply G; simpl; auto 10]. unfold is_quote in Hq.
  repeat (apply orb_true_iff in Hq as [Hq|Hq]); apply N.eqb_eq in Hq; subst q; apply G; simpl; auto 10.
Qed.

(** Ending the current token. *)
Lemma flush_word w c t : word_char c = false -> scan (SWord w) (c :: t) = let '(l, s) := scan SNone (c :: t) in (TWord w :: l, s).
Proof.
  intros H. cbn [scan sstep]. unfold word_char in H. rewrite H. destruct (sstart c) as [l s]. destruct (scan s t). reflexivity.
Qed.
Lemma flush_num n c t : word_char c = false -> scan (SNum n) (c :: t) = let '(l, s) := scan SNone (c :: t) in (TNum n :: l, s).
Proof.
  intros H. cbn [scan sstep]. unfold word_char in H. apply orb_false_iff in H as [H1 H2]. rewrite H1, H2.
  destruct (sstart c) as [l s]. destruct (scan s t). reflexivity.
Qed.
Lemma flush_str q a t : scan (SStr q a) (q :: t) = let '(l, s) := scan SNone t in (TStr q a :: l, s).
Proof. cbn [scan sstep]. rewrite N.eqb_refl. destruct (scan SNone t). reflexivity. Qed.

(** ** Determinism of the reader *)

Lemma Key_det t k k' : Key t k -> Key t k' -> k = k'.
Proof. inversion 1; inversion 1; congruence. Qed.
Lemma Sep_det r r1 r2 : Sep r r1 -> Sep r r2 -> r1 = r2.
Proof. inversion 1; subst; inversion 1; congruence. Qed.
Scheme Val_ind2 := Induction for Val Sort Prop
  with Mem_ind2 := Induction for Mem Sort Prop
  with Elems_ind2 := Induction for Elems Sort Prop.
Combined Scheme Val_mutind from Val_ind2, Mem_ind2, Elems_ind2.

Lemma reader_det :
  (forall ts v r, Val ts v r -> forall v' r', Val ts v' r' -> v = v' /\ r = r') /\
  (forall ts l r, Mem ts l r -> forall l' r', Mem ts l' r' -> l = l' /\ r = r') /\
  (forall ts l r, Elems ts l r -> forall l' r', Elems ts l' r' -> l = l' /\ r = r').
Proof.
  apply (Val_mutind
    (fun ts v r _ => forall v' r', Val ts v' r' -> v = v' /\ r = r')
    (fun ts l r _ => forall l' r', Mem ts l' r' -> l = l' /\ r = r')
    (fun ts l r _ => forall l' r', Elems ts l' r' -> l = l' /\ r = r')).
  - intros n r v' r' H. inversion H; subst; auto.
  - intros n r v' r' H. inversion H; subst; auto.
  - intros n r v' r' H. inversion H; subst; auto.
  - intros n r v' r' H. inversion H; subst; auto.
  - intros ts l r _ IH v' r' H. inversion H as [| | | |? l' ? HM|]; subst. destruct (IH _ _ HM) as [-> ->]. auto.
  - intros ts l r _ IH v' r' H. inversion H as [| | | | |? l' ? HM]; subst. destruct (IH _ _ HM) as [-> ->]. auto.
  - intros r l' r' H. inversion H as [| |t k ts v r1 r2 l'' r'' Hk]; subst; auto. inversion Hk.
  - intros ts l r _ IH l' r' H. inversion H as [|? ? ? HM|t k ts' v r1 r2 l'' r'' Hk]; subst; auto. inversion Hk.
  - intros t k ts v r r' l r'' Hk _ IHv Hs _ IHm l1 r1 H.
    inversion H as [ |ts0 l0 r0 HM|t0 k0 ts0 v0 r0 r2 l2 r3 Hk' Hv' Hs' Hm']; subst; try (inversion Hk; fail).
    destruct (IHv _ _ Hv') as [-> ->]. pose proof (Sep_det _ _ _ Hs Hs'). subst. destruct (IHm _ _ Hm') as [-> ->].
    rewrite (Key_det _ _ _ Hk Hk'). auto.
  - intros r l' r' H. inversion H as [|?|ts v r1 l1 r2 Hv|ts v r1 Hv]; subst; auto; inversion Hv.
  - intros ts l r _ IH l' r' H. inversion H as [|?|ts' v r1 l1 r2 Hv|ts' v r1 Hv]; subst; auto; inversion Hv.
  - intros ts v r l r' Hv IHv _ IHe l' r1 H. inversion H as [r0|ts0 l0 r0 He|ts0 v0 r0 l0 r2 Hv' He'|ts0 v0 r0 Hv']; subst.
    + inversion Hv.
    + inversion Hv.
    + destruct (IHv _ _ Hv') as [-> E]. injection E as ->. destruct (IHe _ _ He') as [-> ->]. auto.
    + destruct (IHv _ _ Hv') as [-> E]. discriminate.
  - intros ts v r Hv IHv l' r1 H. inversion H as [r0|ts0 l0 r0 He|ts0 v0 r0 l0 r2 Hv' He'|ts0 v0 r0 Hv']; subst.
    + inversion Hv.
    + inversion Hv.
    + destruct (IHv _ _ Hv') as [-> E]. discriminate.
    + destruct (IHv _ _ Hv') as [-> E]. injection E as ->. auto.
Qed.
Lemma Decl_det ts n v r : Decl ts n v r -> forall n' v' r', Decl ts n' v' r' -> n = n' /\ v = v' /\ r = r'.
Proof.
  induction 1 as [ts n v r H IH|ts n v r H IH|n ts v r Hv|n ts v r Hv]; intros n' v' r' H';
    inversion H' as [ts0 n0 v0 r0 H0|ts0 n0 v0 r0 H0|n0 ts0 v0 r0 Hv'|n0 ts0 v0 r0 Hv']; subst; auto; try discriminate;
    destruct (proj1 reader_det _ _ _ Hv _ _ Hv') as [-> ->]; auto.
Qed.
Lemma CT_det ts c r : CT ts c r -> forall c' r', CT ts c' r' -> c = c' /\ r = r'.
Proof.
  induction 1 as [ts a r Ha Hn Hr|ts a r1 t r2 e r3 Ha Hn _ IHt _ IHe]; intros c' r' H';
    inversion H' as [ts0 a0 r0 Ha' Hn' Hr'|ts0 a0 r10 t0 r20 e0 r30 Ha' Hn' Ht He]; subst; rewrite Ha in Ha'; injection Ha' as -> E1.
  - subst. auto.
  - exfalso. eapply Hr. exact E1.
  - exfalso. eapply Hr'. symmetry. exact E1.
  - subst r10. destruct (IHt _ _ Ht) as [-> E]. injection E as ->. destruct (IHe _ _ He) as [-> ->]. auto.
Qed.
