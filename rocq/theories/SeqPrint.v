(** Proofs for C91. *)
From Verif Require Import Base Grammar GrammarSpec IsoSpec SeqSpec SeqProofs SeqEvalSpec SeqEval SeqPrintSpec.
From Verif Require MixUse.

Lemma texp_ind' (P : texp -> Prop) : (forall s i f us ess, Forall (fun x => Forall P (snd x)) ess -> P (TOp s i f us ess)) -> forall e, P e.
Proof.
  intros H. fix IH 1. intros [s i f us ess]. apply H. induction ess as [|[ws es] ess IHess]; constructor; [|exact IHess]. clear IHess. cbn [snd]. induction es as [|e es IHes]; constructor; auto.
Qed.
Lemma weave_snoc {A} (u : A) w us : forall ws, length ws = S (length us) -> weave (us ++ [u]) (ws ++ [w]) = weave us ws ++ u :: w.
Proof.
  induction us as [|u0 us IH]; intros [|w0 ws] Hl; try discriminate; cbn [length] in Hl.
  - destruct ws; [|discriminate]. cbn. rewrite !app_nil_r. reflexivity.
  - cbn [app weave]. rewrite IH by lia. rewrite <- app_assoc. reflexivity.
Qed.

Section Print.
  Variable M : lang.
  Variable Q : sym -> list N -> Prop.

  Lemma spelt_len h x : spelt_at M Q h x -> length (snd x) = S (length (fst x)).
  Proof. induction 1; cbn [fst snd length] in *; auto. rewrite !app_length. cbn [length]. lia. Qed.
  Lemma spelt_some h x : spelt_at M Q h x -> snd x <> [].
  Proof. intros H E0. apply spelt_len in H. rewrite E0 in H. discriminate. Qed.
  Lemma fill_spelt l : forall us wss vs, Forall2 Q (toks l) us -> Forall2 (fun hw v => Forall2 Q (match fst hw with HArg _ _ => concat (snd hw) | HList n => join (ls_sep M n) (snd hw) end) v) (combine (holes l) wss) vs ->
    length (holes l) = length wss -> Forall2 Q (fill M l wss) (tfill l us vs).
  Proof.
    induction l as [|[t|s i|n] l IH]; intros us wss vs Hu Hw Hl; cbn [fill tfill].
    - constructor.
    - change (toks (Tok t :: l)) with (t :: toks l) in Hu. change (holes (Tok t :: l)) with (holes l) in Hl, Hw. inversion Hu; subst. constructor; auto.
    - change (toks (Arg s i :: l)) with (toks l) in Hu. change (holes (Arg s i :: l)) with (HArg s i :: holes l) in Hl, Hw. destruct wss as [|w wss]; [discriminate|]. cbn [combine] in Hw.
      inversion Hw as [|? v ? vs' H1 H2]; subst. cbn [fst snd] in H1. injection Hl as Hl. destruct us; apply Forall2_app; auto.
    - change (toks (Lst n :: l)) with (toks l) in Hu. change (holes (Lst n :: l)) with (HList n :: holes l) in Hl, Hw. destruct wss as [|w wss]; [discriminate|]. cbn [combine] in Hw.
      inversion Hw as [|? v ? vs' H1 H2]; subst. cbn [fst snd] in H1. injection Hl as Hl. destruct us; apply Forall2_app; auto.
  Qed.
  (** The texts written fit the terminals written. *)
  Lemma at_spelt h x : spelt_at M Q h x -> Forall (fun e => forall s, well_spelt M Q s e -> Forall2 Q (lwritten M (bare e)) (texts M e)) (snd x) ->
    Forall2 Q (said M h (map bare (snd x))) (weave (fst x) (map (texts M) (snd x))).
  Proof.
    induction 1 as [s i e H|n e H|n us es u e H IH Hu He]; cbn [fst snd] in *; intros HF.
    - inversion HF; subst. cbn. rewrite !app_nil_r. eauto.
    - inversion HF; subst. cbn. rewrite !app_nil_r. eauto.
    - apply Forall_app in HF as [F1 F2]. inversion F2 as [|? ? F3 _]; subst. pose proof (spelt_len _ _ H) as Hl. cbn [fst snd] in Hl.
      rewrite !map_app. cbn [map]. rewrite weave_snoc by (rewrite map_length; exact Hl). unfold said. change [bare e] with (map bare [e]). rewrite <- map_app, map_app. cbn [map].
      rewrite fill_list by (destruct es; [discriminate Hl|discriminate]). apply Forall2_app; [apply IH, F1|]. constructor; eauto.
  Qed.
  Lemma spelt e : forall s, well_spelt M Q s e -> Forall2 Q (lwritten M (bare e)) (texts M e).
  Proof.
    induction e as [s j f us ess IH] using texp_ind'. intros s0 H. inversion H as [? ? ? ? ? Hf Hu HF]; subst. cbn [bare lwritten texts].
    apply fill_spelt; [exact Hu| |rewrite !map_length; eapply MixUse.Forall2_len; eauto].
    clear H Hu. revert IH HF. generalize (holes (form_slots M s j f)) as hs. induction ess as [|x ess IHess]; intros hs IH HF; [destruct hs; constructor|].
    inversion HF as [|h ? hs' ? H1 H2]; subst. inversion IH as [|? ? I1 I2]; subst. cbn [map combine]. constructor; [|auto]. cbn [fst snd]. exact (at_spelt _ _ H1 I1).
  Qed.

  Variable V : Type.
  Variable op : nat -> nat -> form -> list (arg V) -> V.
  Variable one : nat -> V -> V.
  Variable more : nat -> V -> list N -> V -> V.
  Notation ev := (leval V M op one more).
  Notation val := (tvalue V M op one more).
  Notation texts_ := (list (list N)).
  Definition at_ok (h : hole) (fs : list (texts_ -> V * texts_)) (w : texts_) (x : list (list N) * list V) : Prop :=
    match h with
    | HArg _ _ => exists f v, fs = [f] /\ snd x = [v] /\ forall r, f (w ++ r) = (v, r)
    | HList n => exists f fs' v, fs = f :: fs' /\ list_value V one more n (fst x) (snd x) = [v] /\ forall r, let (v0, ws) := f (w ++ r) in elems V more n (one n v0) fs' ws = (v, r)
    end.
  Inductive all_ok : list hole -> list (list (texts_ -> V * texts_)) -> list texts_ -> list (list (list N) * list V) -> Prop :=
  | all_nil : all_ok [] [] [] []
  | all_cons h hs fs fss w ws x xs : at_ok h fs w x -> all_ok hs fss ws xs -> all_ok (h :: hs) (fs :: fss) (w :: ws) (x :: xs).
  Lemma args_spelt l : forall us fss ws xs r, length (toks l) = length us -> all_ok (holes l) fss ws xs ->
    args V one more l fss (tfill l us ws ++ r) = (targs V one more l us xs, r).
  Proof.
    induction l as [|[t|s i|n] l IH]; intros us fss ws xs r Hu HF; [reflexivity|..].
    - change (toks (Tok t :: l)) with (t :: toks l) in Hu. change (holes (Tok t :: l)) with (holes l) in HF. destruct us as [|u us]; [discriminate|]. injection Hu as Hu.
      cbn [args tfill targs app]. rewrite (IH us fss ws xs r) by auto. reflexivity.
    - change (toks (Arg s i :: l)) with (toks l) in Hu. change (holes (Arg s i :: l)) with (HArg s i :: holes l) in HF. inversion HF as [|? ? fs fss' w ws' x xs' H1 H2]; subst.
      destruct H1 as (f & v & -> & Ev & H1).
      assert (ET : tfill (Arg s i :: l) us (w :: ws') = w ++ tfill l us ws') by (destruct us; reflexivity). rewrite ET. clear ET.
      assert (ET : targs V one more (Arg s i :: l) us (x :: xs') = AVal v :: targs V one more l us xs') by (destruct us; cbn [targs]; rewrite Ev; reflexivity). rewrite ET. clear ET.
      rewrite <- app_assoc. cbn [args]. rewrite H1, (IH us fss' ws' xs' r) by auto. reflexivity.
    - change (toks (Lst n :: l)) with (toks l) in Hu. change (holes (Lst n :: l)) with (HList n :: holes l) in HF. inversion HF as [|? ? fs fss' w ws' x xs' H1 H2]; subst.
      destruct H1 as (f & fs' & v & -> & Ev & H1).
      assert (ET : tfill (Lst n :: l) us (w :: ws') = w ++ tfill l us ws') by (destruct us; reflexivity). rewrite ET. clear ET.
      assert (ET : targs V one more (Lst n :: l) us (x :: xs') = AVal v :: targs V one more l us xs') by (destruct us; cbn [targs]; rewrite Ev; reflexivity). rewrite ET. clear ET.
      rewrite <- app_assoc. cbn [args]. specialize (H1 (tfill l us ws' ++ r)). destruct (f _) as [v0 ws0]. rewrite H1, (IH us fss' ws' xs' r) by auto. reflexivity.
  Qed.
  Lemma fold_snoc n us vs u v a : length us = length vs ->
    fold_left (fun a x => more n a (fst x) (snd x)) (combine (us ++ [u]) (vs ++ [v])) a = more n (fold_left (fun a x => more n a (fst x) (snd x)) (combine us vs) a) u v.
  Proof.
    revert vs a. induction us as [|u0 us IH]; intros [|v0 vs] a Hl; try discriminate; [reflexivity|]. cbn [app combine fold_left fst snd]. apply IH. injection Hl as Hl. exact Hl.
  Qed.
  Lemma at_value h x : spelt_at M Q h x -> Forall (fun e => forall s, well_spelt M Q s e -> forall r, ev (bare e) (texts M e ++ r) = (val e, r)) (snd x) ->
    at_ok h (map ev (map bare (snd x))) (weave (fst x) (map (texts M) (snd x))) (fst x, map val (snd x)).
  Proof.
    induction 1 as [s i e H|n e H|n us es u e H IH Hu He]; cbn [fst snd at_ok] in *; intros HF.
    - inversion HF as [|? ? F1 _]; subst. exists (ev (bare e)), (val e). split; auto. split; auto. intros r. cbn [weave map concat]. rewrite app_nil_r. eauto.
    - inversion HF as [|? ? F1 _]; subst. exists (ev (bare e)), [], (one n (val e)). split; auto. split; auto. intros r. cbn [weave map concat]. rewrite app_nil_r. rewrite (F1 _ H). reflexivity.
    - apply Forall_app in HF as [F1 F2]. inversion F2 as [|? ? F3 _]; subst. pose proof (spelt_len _ _ H) as Hl. cbn [fst snd] in Hl.
      destruct (IH F1) as (f & fs' & v & E1 & E2 & H1). destruct es as [|e0 es]; [discriminate Hl|]. cbn [map] in E1. injection E1 as <- <-.
      exists (ev (bare e0)), (map ev (map bare es) ++ [ev (bare e)]), (more n v u (val e)). split; [cbn [app map]; rewrite !map_app; reflexivity|]. split.
      + cbn [app map list_value] in *. injection E2 as <-. rewrite map_app. cbn [map]. rewrite fold_snoc; [reflexivity|]. rewrite map_length. cbn [length] in Hl. lia.
      + intros r. rewrite map_app. change (map (texts M) [e]) with [texts M e]. rewrite (weave_snoc u (texts M e) us (map (texts M) (e0 :: es))) by (rewrite map_length; exact Hl). rewrite <- app_assoc. cbn [app].
        specialize (H1 (u :: texts M e ++ r)). cbn [map] in H1. cbn [map]. destruct (ev (bare e0) _) as [v0 ws0]. rewrite elems_app, H1. cbn [elems]. rewrite (F3 _ He). reflexivity.
  Qed.
  (** Evaluating the texts written gives the value. *)
  Lemma value_spelt e : forall s, well_spelt M Q s e -> forall r, ev (bare e) (texts M e ++ r) = (val e, r).
  Proof.
    induction e as [s j f us ess IH] using texp_ind'. intros s0 H r. inversion H as [? ? ? ? ? Hf Hu HF]; subst. cbn [bare leval texts tvalue].
    assert (E : args V one more (form_slots M s j f) (map (map ev) (map (fun x => map bare (snd x)) ess)) (tfill (form_slots M s j f) us (map (fun x => weave (fst x) (map (texts M) (snd x))) ess) ++ r) =
      (targs V one more (form_slots M s j f) us (map (fun x => (fst x, map val (snd x))) ess), r)); [|rewrite E; reflexivity].
    apply args_spelt; [eapply MixUse.Forall2_len; eauto|].
    clear H Hu. revert IH HF. generalize (holes (form_slots M s j f)) as hs. induction ess as [|x ess IHess]; intros hs IH HF; inversion HF as [|h ? hs' ? H1 H2]; subst; [constructor|].
    inversion IH as [|? ? I1 I2]; subst. cbn [map]. constructor; [exact (at_value _ _ H1 I1)|auto].
  Qed.

  Variable br : nat -> bracket.
  Hypothesis OK : lang_ok M.
  Hypothesis Hbr : brackets_ok M Q br.

  Lemma bk_holes s i : s < lg_sorts M -> holes (form_slots M s i (bk_form (br s))) = [HArg s 0].
  Proof using Hbr.
    intros Hs. destruct (Hbr s Hs) as ((_ & Hl & Hr & t & Et) & _). unfold form_slots. rewrite Hl, Hr, Et. reflexivity.
  Qed.
  Lemma bk_toks s i : s < lg_sorts M -> Forall2 Q (toks (form_slots M s i (bk_form (br s)))) [bk_open (br s); bk_close (br s)].
  Proof using Hbr.
    intros Hs. destruct (Hbr s Hs) as ((_ & Hl & Hr & t & Et) & H1 & H2). unfold form_slots. rewrite Hl, Hr, Et. repeat constructor; auto. apply H2. rewrite Et. left. reflexivity.
  Qed.
  Lemma bk_args s i (v : V) : s < lg_sorts M -> targs V one more (form_slots M s i (bk_form (br s))) [bk_open (br s); bk_close (br s)] [([], [v])] = [AText (bk_open (br s)); AVal v; AText (bk_close (br s))].
  Proof using Hbr.
    intros Hs. destruct (Hbr s Hs) as ((_ & Hl & Hr & t & Et) & _). unfold form_slots. rewrite Hl, Hr, Et. reflexivity.
  Qed.

  (** Brackets where the level is too low, and only there. *)
  Definition can (e : texp) : Prop := forall s i, well_spelt M Q s e -> i <= lg_top M s ->
    exists e', tadds M br e e' /\ lproper M s i (bare e') /\ well_spelt M Q s e' /\ (lproper M s i (bare e) -> e' = e) /\ (transparent M op br -> val e' = val e) /\
      forall e'', tadds M br e e'' -> lproper M s i (bare e'') -> tadds M br e' e''.
  Lemma fills_last n es e : fills M (HList n) (es ++ [e]) -> es <> [] -> fills M (HList n) es /\ lproper M (ls_sort M n) 0 e.
  Proof.
    intros H Hn. inversion H as [|? e0 He E1 E2|? es0 e0 H1 H2 E1 E2]; subst.
    - destruct es as [|e1 [|e2 es]]; [congruence|discriminate E2..].
    - apply app_inj_tail in E2 as [-> ->]. auto.
  Qed.
  Lemma fills_single n e : fills M (HList n) [e] -> lproper M (ls_sort M n) 0 e.
  Proof.
    intros H. inversion H as [|? e0 He E1 E2|? es0 e0 H1 H2 E1 E2]; subst; auto. destruct es0 as [|e1 es0]; [destruct (fills_some _ _ _ H1 eq_refl)|]. destruct es0; discriminate E2.
  Qed.
  Lemma at_can h x : match h with HArg s i => i <= lg_top M s | HList _ => True end -> spelt_at M Q h x -> Forall can (snd x) ->
    exists x', (fst x = fst x' /\ Forall2 (tadds M br) (snd x) (snd x')) /\ fills M h (map bare (snd x')) /\ spelt_at M Q h x' /\ (fills M h (map bare (snd x)) -> x' = x) /\
      (transparent M op br -> map val (snd x') = map val (snd x)) /\
      forall x'', fst x = fst x'' /\ Forall2 (tadds M br) (snd x) (snd x'') -> fills M h (map bare (snd x'')) -> fst x' = fst x'' /\ Forall2 (tadds M br) (snd x') (snd x'').
  Proof.
    intros Hh H. induction H as [s i e H|n e H|n us es u e H IH Hu He]; cbn [fst snd] in *; intros HF.
    - inversion HF as [|? ? F1 _]; subst. destruct (F1 s i H Hh) as (e' & A1 & A2 & A3 & A4 & A5 & A6). exists ([], [e']). cbn [fst snd map]. split; [auto|]. split; [constructor; auto|]. split; [constructor; auto|].
      split; [|split; [intros HT; rewrite A5; auto|]]. { intros HP. inversion HP; subst. rewrite A4; auto. }
      intros [us'' es''] [E0 HA] HP. cbn [fst snd] in *. split; auto. inversion HA as [|? e'' ? ? HA1 HA2]; subst. inversion HA2; subst. constructor; [|constructor]. cbn [map] in HP. inversion HP; subst. auto.
    - inversion HF as [|? ? F1 _]; subst. destruct (F1 (ls_sort M n) 0 H ltac:(lia)) as (e' & A1 & A2 & A3 & A4 & A5 & A6). exists ([], [e']). cbn [fst snd map]. split; [auto|]. split; [constructor; auto|]. split; [constructor; auto|].
      split; [|split; [intros HT; rewrite A5; auto|]]. { intros HP. apply fills_single in HP. rewrite A4; auto. }
      intros [us'' es''] [E0 HA] HP. cbn [fst snd] in *. split; auto. inversion HA as [|? e'' ? ? HA1 HA2]; subst. inversion HA2; subst. constructor; [|constructor]. cbn [map] in HP. apply fills_single in HP. auto.
    - apply Forall_app in HF as [F1 F2]. inversion F2 as [|? ? F3 _]; subst. destruct (IH I F1) as ([us' es'] & (B1 & B2) & B3 & B4 & B5 & B6 & B7). cbn [fst snd] in *. subst us'.
      pose proof (spelt_some _ _ H) as Hn. cbn [snd] in Hn.
      destruct (F3 (ls_sort M n) 0 He ltac:(lia)) as (e' & A1 & A2 & A3 & A4 & A5 & A6). exists (us ++ [u], es' ++ [e']). cbn [fst snd]. split; [split; [auto|apply Forall2_app; auto]|].
      rewrite !map_app. cbn [map]. split; [constructor; auto|]. split; [constructor; auto|]. split; [|split].
      + intros HP. apply fills_last in HP as [P1 P2]; [|destruct es; [congruence|discriminate]]. rewrite A4 by auto. specialize (B5 P1). injection B5 as ->. reflexivity.
      + intros HT. rewrite B6, A5; auto.
      + intros [us'' es''] [E0 HA] HP. cbn [fst snd] in *. split; auto. apply Forall2_app_inv_l in HA as (es1 & es2 & HA1 & HA2 & ->). inversion HA2 as [|? e'' ? ? HA3 HA4]; subst. inversion HA4; subst.
        rewrite map_app in HP. cbn [map] in HP. apply fills_last in HP as [P1 P2]; [|inversion HA1; subst; [congruence|discriminate]].
        apply Forall2_app; [apply (B7 (us, es1)); cbn [fst snd]; auto|constructor; [auto|constructor]].
  Qed.
  Lemma tbracketed e : can e.
  Proof using OK Hbr.
    induction e as [s j f us ess IH] using texp_ind'. intros s0 i H Hi. inversion H as [? ? ? ? ? Hf Hu HF]; subst.
    assert (G : exists ess', Forall2 (fun x y => fst x = fst y /\ Forall2 (tadds M br) (snd x) (snd y)) ess ess' /\ Forall2 (fills M) (holes (form_slots M s j f)) (map (fun x => map bare (snd x)) ess') /\
      Forall2 (spelt_at M Q) (holes (form_slots M s j f)) ess' /\
      (Forall2 (fills M) (holes (form_slots M s j f)) (map (fun x => map bare (snd x)) ess) -> ess' = ess) /\
      (transparent M op br -> map (fun x => (fst x, map val (snd x))) ess' = map (fun x => (fst x, map val (snd x))) ess) /\
      forall ess'', Forall2 (fun x y => fst x = fst y /\ Forall2 (tadds M br) (snd x) (snd y)) ess ess'' -> Forall2 (fills M) (holes (form_slots M s j f)) (map (fun x => map bare (snd x)) ess'') ->
        Forall2 (fun x y => fst x = fst y /\ Forall2 (tadds M br) (snd x) (snd y)) ess' ess'').
    { assert (Hh : forall h, In h (holes (form_slots M s j f)) -> match h with HArg s i => i <= lg_top M s | HList _ => True end).
      { intros h Hh. unfold holes in Hh. apply in_flat_map in Hh as (x & Hx & Hh). pose proof (mk_slots _ OK _ _ _ Hf x Hx) as Hk. destruct x as [t|a' b'|n]; [destruct Hh|destruct Hh as [<-|[]]..]; [apply Hk|exact I]. }
      clear H Hf Hu. revert IH HF Hh. generalize (holes (form_slots M s j f)) as hs. induction ess as [|x ess IHess]; intros hs IH HF Hh.
      - exists []. inversion HF; subst. cbn [map]. auto 7.
      - inversion HF as [|h x' hs' ess' H1 HF']; subst. inversion IH as [|? ? IH1 IH2]; subst.
        destruct (IHess _ IH2 HF') as (ess1 & A1 & A2 & A3 & A4 & A5 & A6); [intros; apply Hh; right; auto|].
        destruct (at_can h x (Hh h (or_introl eq_refl)) H1 IH1) as (x1 & B1 & B2 & B3 & B4 & B5 & B6).
        exists (x1 :: ess1). cbn [map]. split; [auto|]. split; [auto|]. split; [auto|]. split; [|split; [intros HT; f_equal; auto; f_equal; auto; symmetry; apply B1|]].
        + intros HP. inversion HP; subst. f_equal; auto.
        + intros ess'' HA HP. inversion HA as [|? x'' ? ess2 HA1 HA2]; subst. cbn [map] in HP. inversion HP; subst. constructor; auto. }
    destruct G as (ess' & G1 & G2 & G3 & G4 & G5 & G6).
    assert (HK : forall e'', tadds M br (TOp s j f us ess) e'' -> forall k, lproper M s k (bare e'') -> tadds M br (TOp s j f us ess') e'').
    { intros e'' HA. remember (TOp s j f us ess) as e0 eqn:E0. induction HA as [s1 i1 f1 us1 ess1 ess1' HA|s1 i1 f1 us1 ess1 e1 HA IHA]; injection E0 as -> -> -> -> ->; intros k HP.
      - cbn [bare] in HP. inversion HP as [? ? ? ? ? Hk Hf1 HP1]; subst. constructor. auto.
      - cbn [bare map snd] in HP. inversion HP as [? ? ? ? ? Hk Hf1 HP1]; subst. rewrite bk_holes in HP1 by apply Hf. inversion HP1 as [|? ? ? ? HP2 _]; subst. inversion HP2; subst.
        constructor. eapply IHA; eauto. }
    destruct (le_lt_dec i j) as [D|D].
    - exists (TOp s j f us ess'). split; [constructor; auto|]. split; [constructor; auto|]. split; [constructor; auto|]. split; [|split; [intros HT; cbn [tvalue]; rewrite G5; auto|eauto]].
      intros HP. cbn [bare] in HP. inversion HP; subst. f_equal. auto.
    - pose proof Hf as (Hs & _). exists (TOp s (lg_top M s) (bk_form (br s)) [bk_open (br s); bk_close (br s)] [([], [TOp s j f us ess'])]). split; [apply ta_br; constructor; auto|]. split; [|split; [|split; [|split]]].
      + cbn [bare map snd]. constructor; [exact Hi|apply (Hbr s Hs)|]. rewrite bk_holes by auto. constructor; [|constructor]. constructor. constructor; [lia|auto..].
      + constructor; [apply (Hbr s Hs)|apply bk_toks; auto|]. rewrite bk_holes by auto. constructor; [|constructor]. constructor. constructor; auto.
      + intros HP. inversion HP; subst. lia.
      + intros HT. cbn [tvalue map fst snd]. rewrite bk_args by auto. rewrite HT by auto. rewrite G5; auto.
      + intros e'' HA HP. remember (TOp s j f us ess) as e0 eqn:E0. destruct HA as [s1 i1 f1 us1 ess1 ess1' HA|s1 i1 f1 us1 ess1 e1 HA]; injection E0 as -> -> -> -> ->.
        * cbn [bare] in HP. inversion HP; subst. lia.
        * cbn [bare map snd] in HP. inversion HP as [? ? ? ? ? Hk Hf1 HP1]; subst. rewrite bk_holes in HP1 by auto. inversion HP1 as [|? ? ? ? HP2 _]; subst. inversion HP2; subst.
          constructor. constructor; [|constructor]. cbn [fst snd]. split; auto. constructor; [|constructor]. eauto.
  Qed.
End Print.
