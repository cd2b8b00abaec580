From Coq Require Import Ascii String.
From Verif Require Import Base Text TsText TsTextFacts TsScan TsTables.
Local Open Scope list_scope.

Lemma NoDup_fst_fun {A B} (l : list (A * B)) k a b : NoDup (map fst l) -> In (k, a) l -> In (k, b) l -> a = b.
Proof.
  induction l as [|[k0 v0] l IH]; simpl; [intros _ []|]. intros Hn [Ha|Ha] [Hb|Hb]; apply NoDup_cons_iff in Hn as [Hn1 Hn2]; try (congruence || tauto).
  - exfalso. apply Hn1. injection Ha as -> ->. apply in_map_iff. exists (k, b). auto.
  - exfalso. apply Hn1. injection Hb as -> ->. apply in_map_iff. exists (k, a). auto.
Qed.
Lemma map_inj {A B} (f : A -> B) : (forall x y, f x = f y -> x = y) -> forall l l', map f l = map f l' -> l = l'.
Proof. intros Hf. induction l as [|x l IH]; intros [|y l'] E; try discriminate; auto. injection E as E1 E2. f_equal; auto. Qed.
Lemma vbool_inj a b : vbool a = vbool b -> a = b.
Proof. destruct a, b; intros E; auto; discriminate E. Qed.
Lemma vnum_inj l l' : map VNum l = map VNum l' -> l = l'.
Proof. apply map_inj. intros x y E. injection E. auto. Qed.
Lemma vlabel_inj l l' : map vlabel l = map vlabel l' -> l = l'.
Proof. apply map_inj. intros [a b] [a' b'] E. injection E as -> ->. auto. Qed.
Lemma vstate_inj s s' : vstate s = vstate s' -> s = s'.
Proof. destruct s as [a b c], s' as [a' b' c']. unfold vstate. cbn [tl_to tl_labels tl_accepting]. intros E. injection E as E1 E2 E3. apply vnum_inj in E1. apply vlabel_inj in E2.
  f_equal; auto. apply vbool_inj. unfold vbool. f_equal; auto. Qed.
Lemma vtoken_inj s s' : vtoken s = vtoken s' -> s = s'.
Proof. destruct s as [a b], s' as [a' b']. unfold vtoken. cbn [fst snd]. intros E. injection E as E1 E2. f_equal; auto. apply vbool_inj. unfold vbool. f_equal; auto. Qed.
Lemma names_det ds v a b : NoDup (map fst ds) -> names ds v a -> names ds v b -> a = b.
Proof. intros Hn (n & -> & Ha) (n' & E & Hb). injection E as <-. eapply NoDup_fst_fun; eauto. Qed.

Lemma ReadLex_det text T T' : ReadLex text T -> ReadLex text T' -> T = T'.
Proof.
  intros (ts & ds & sts & tks & dn & Ht & Hd & Hn & H1 & H2 & H3 & H4 & H5 & H6 & H7 & H8)
         (ts' & ds' & sts' & tks' & dn' & Ht' & Hd' & Hn' & H1' & H2' & H3' & H4' & H5' & H6' & H7' & H8').
  rewrite Ht in Ht'. injection Ht' as <-. pose proof (Decls_det _ _ Hd _ Hd') as <-.
  pose proof (NoDup_fst_fun _ _ _ _ Hn H1 H1') as E1. injection E1 as <-.
  pose proof (NoDup_fst_fun _ _ _ _ Hn H3 H3') as E2. injection E2 as <-.
  pose proof (NoDup_fst_fun _ _ _ _ Hn H6 H6') as E3. injection E3 as <-. clear H4' H7' H1' H3' H6' Hd' Hn' H1 H3 H6 H4 H7.
  destruct T as [s t d], T' as [s' t' d']. cbn [lt_states lt_tokens lt_d2n] in *. f_equal.
  - clear H5 H5' H8 H8'. revert s' H2'. induction H2 as [|v x l l' Hv _ IH]; intros s1 H2'; inversion H2' as [|v0 x' l0 l0' Hv' Hl']; subst; auto.
    f_equal; auto. apply vstate_inj. eapply names_det; eauto.
  - clear H2 H2' H8 H8'. revert t' H5'. induction H5 as [|v x l l' Hv _ IH]; intros s1 H2'; inversion H2' as [|v0 x' l0 l0' Hv' Hl']; subst; auto.
    f_equal; auto. destruct Hv as [E1 E2], Hv' as [E1' E2']. rewrite E1 in E1'. injection E1' as E1'.
    destruct x, x'. cbn [fst snd] in *. subst. f_equal. apply vtoken_inj. eapply names_det; eauto.
  - subst dn. revert H8'. apply map_inj. intros [a l] [a' l'] E. injection E as -> E. cbn [snd] in E. apply vnum_inj in E. congruence.
Qed.
