(** Proofs for C87. *)
From Verif Require Import Base Grammar GrammarSpec IsoSpec MixSpec MixEvalSpec MixUseSpec MixUse MixPrintSpec.

Lemma texp_ind' (P : texp -> Prop) : (forall s i f us es, Forall P es -> P (TOp s i f us es)) -> forall e, P e.
Proof. intros H. fix IH 1. intros [s i f us es]. apply H. induction es as [|e es IHes]; constructor; auto. Qed.

Section Print.
  Variable M : mix.
  Variable Q : sym -> list N -> Prop.

  Lemma fill_spelt l : forall us ws vs, Forall2 Q (toks l) us -> length (holes l) = length ws -> Forall2 (Forall2 Q) ws vs -> Forall2 Q (fill l ws) (tfill l us vs).
  Proof.
    induction l as [|[t|s i] l IH]; intros us ws vs Hu Hl Hw; cbn [fill tfill].
    - constructor.
    - change (toks (Tok t :: l)) with (t :: toks l) in Hu. change (holes (Tok t :: l)) with (holes l) in Hl. inversion Hu; subst. constructor; auto.
    - change (toks (Arg s i :: l)) with (toks l) in Hu. change (holes (Arg s i :: l)) with ((s, i) :: holes l) in Hl. destruct ws as [|w ws]; [discriminate|].
      inversion Hw as [|? v ? vs' H1 H2]; subst. cbn [tfill]. destruct us; apply Forall2_app; auto.
  Qed.
  (** The texts written fit the terminals written. *)
  Lemma spelt e : forall s, well_spelt M Q s e -> Forall2 Q (mwritten M (bare e)) (texts M e).
  Proof.
    induction e as [s j f us es IH] using texp_ind'. intros s0 H. inversion H as [? ? ? ? ? Hf Hu HF]; subst. cbn [bare mwritten texts].
    apply fill_spelt; [exact Hu|rewrite !map_length; eapply Forall2_len; eauto|].
    clear H Hu. revert IH HF. generalize (holes (form_slots M s j f)) as hs. induction es as [|e es IHes]; intros hs IH HF; [constructor|].
    inversion HF; subst. inversion IH; subst. cbn [map]. constructor; eauto.
  Qed.

  Variable V : Type.
  Variable op : nat -> nat -> form -> list (arg V) -> V.
  Lemma args_spelt l : forall us vs fs ws r, length (toks l) = length us -> length (holes l) = length vs ->
    Forall2 (fun f wv => forall r, f (fst wv ++ r) = (snd wv, r)) fs (combine ws vs) -> length ws = length vs ->
    args V l fs (tfill l us ws ++ r) = (targs l us vs, r).
  Proof.
    induction l as [|[t|s i] l IH]; intros us vs fs ws r Hu Hl HF Hw; [reflexivity|..].
    - change (toks (Tok t :: l)) with (t :: toks l) in Hu. change (holes (Tok t :: l)) with (holes l) in Hl. destruct us as [|u us]; [discriminate|]. cbn [length] in Hu.
      cbn [args tfill targs app]. rewrite (IH us vs fs ws r) by (auto; lia). reflexivity.
    - change (toks (Arg s i :: l)) with (toks l) in Hu. change (holes (Arg s i :: l)) with ((s, i) :: holes l) in Hl. destruct vs as [|v vs]; [discriminate|]. destruct ws as [|w ws]; [discriminate|].
      cbn [combine] in HF. inversion HF as [|f ? fs' ? H1 H2]; subst. cbn [length] in *. cbn [fst snd] in H1.
      assert (ET : tfill (Arg s i :: l) us (w :: ws) = w ++ tfill l us ws) by (destruct us; reflexivity). rewrite ET. clear ET.
      assert (ET : targs (Arg s i :: l) us (v :: vs) = AVal v :: targs l us vs) by (destruct us; reflexivity). rewrite ET. clear ET.
      rewrite <- app_assoc. cbn [args]. rewrite H1, (IH us vs fs' ws r) by (auto; lia). reflexivity.
  Qed.
  Lemma toks_spelt s j f us : Forall2 Q (toks (form_slots M s j f)) us -> length (toks (form_slots M s j f)) = length us.
  Proof. apply Forall2_len. Qed.
  (** Evaluating the texts written gives the value. *)
  Lemma value_spelt e : forall s, well_spelt M Q s e -> forall r, meval V M op (bare e) (texts M e ++ r) = (tvalue M op e, r).
  Proof.
    induction e as [s j f us es IH] using texp_ind'. intros s0 H r. inversion H as [? ? ? ? ? Hf Hu HF]; subst. cbn [bare meval texts tvalue].
    assert (E : args V (form_slots M s j f) (map (meval V M op) (map bare es)) (tfill (form_slots M s j f) us (map (texts M) es) ++ r) = (targs (form_slots M s j f) us (map (tvalue M op) es), r)); [|rewrite E; reflexivity].
    apply args_spelt; [apply toks_spelt; auto|rewrite map_length; eapply Forall2_len; eauto| |rewrite !map_length; reflexivity].
    clear H Hu. revert IH HF. generalize (holes (form_slots M s j f)) as hs. induction es as [|e es IHes]; intros hs IH HF; [constructor|].
    inversion HF; subst. inversion IH; subst. cbn [map combine]. constructor; eauto.
  Qed.

  Variable br : nat -> bracket.
  Hypothesis OK : mix_ok M.
  Hypothesis Hbr : brackets_ok M Q br.

  Lemma bk_holes s i : s < mx_sorts M -> holes (form_slots M s i (bk_form (br s))) = [(s, 0)].
  Proof using Hbr.
    intros Hs. destruct (Hbr s Hs) as ((_ & Hl & Hr & t & Et) & _). unfold form_slots. rewrite Hl, Hr, Et. reflexivity.
  Qed.
  Lemma bk_toks s i : s < mx_sorts M -> Forall2 Q (toks (form_slots M s i (bk_form (br s)))) [bk_open (br s); bk_close (br s)].
  Proof using Hbr.
    intros Hs. destruct (Hbr s Hs) as ((_ & Hl & Hr & t & Et) & H1 & H2). unfold form_slots. rewrite Hl, Hr, Et. repeat constructor; auto. apply H2. rewrite Et. left. reflexivity.
  Qed.
  Lemma bk_args s i (v : V) : s < mx_sorts M -> targs (form_slots M s i (bk_form (br s))) [bk_open (br s); bk_close (br s)] [v] = [AText (bk_open (br s)); AVal v; AText (bk_close (br s))].
  Proof using Hbr.
    intros Hs. destruct (Hbr s Hs) as ((_ & Hl & Hr & t & Et) & _). unfold form_slots. rewrite Hl, Hr, Et. reflexivity.
  Qed.

  (** Brackets where the level is too low, and only there. *)
  Lemma tbracketed e : forall s i, well_spelt M Q s e -> i <= mx_top M s ->
    exists e', tadds M br e e' /\ mproper M s i (bare e') /\ well_spelt M Q s e' /\ (mproper M s i (bare e) -> e' = e) /\ (transparent M op br -> tvalue M op e' = tvalue M op e) /\
      forall e'', tadds M br e e'' -> mproper M s i (bare e'') -> tadds M br e' e''.
  Proof using OK Hbr.
    induction e as [s j f us es IH] using texp_ind'. intros s0 i H Hi. inversion H as [? ? ? ? ? Hf Hu HF]; subst.
    assert (G : exists es', Forall2 (tadds M br) es es' /\ Forall2 (fun h e => mproper M (fst h) (snd h) e) (holes (form_slots M s j f)) (map bare es') /\
      Forall2 (fun h e => well_spelt M Q (fst h) e) (holes (form_slots M s j f)) es' /\
      (Forall2 (fun h e => mproper M (fst h) (snd h) e) (holes (form_slots M s j f)) (map bare es) -> es' = es) /\ (transparent M op br -> map (tvalue M op) es' = map (tvalue M op) es) /\
      forall es'', Forall2 (tadds M br) es es'' -> Forall2 (fun h e => mproper M (fst h) (snd h) e) (holes (form_slots M s j f)) (map bare es'') -> Forall2 (tadds M br) es' es'').
    { assert (Hh : forall h, In h (holes (form_slots M s j f)) -> snd h <= mx_top M (fst h)).
      { intros [a b] Hab. unfold holes in Hab. apply in_flat_map in Hab as (x & Hx & Hab). pose proof (mk_slots _ OK _ _ _ Hf x Hx) as Hk.
        destruct x as [t|a' b']; [destruct Hab|]. destruct Hab as [Hab|[]]. injection Hab as <- <-. apply Hk. }
      clear H Hf Hu. revert IH HF Hh. generalize (holes (form_slots M s j f)) as hs. induction es as [|e es IHes]; intros hs IH HF Hh.
      - exists []. inversion HF; subst. cbn [map]. auto 7.
      - inversion HF as [|h e' hs' es' H1 HF']; subst. inversion IH as [|? ? IH1 IH2]; subst.
        destruct (IHes _ IH2 HF') as (es1 & A1 & A2 & A3 & A4 & A5 & A6); [intros; apply Hh; right; auto|].
        destruct (IH1 (fst h) (snd h) H1) as (e1 & B1 & B2 & B3 & B4 & B5 & B6); [apply Hh; left; auto|].
        exists (e1 :: es1). cbn [map]. split; [auto|]. split; [auto|]. split; [auto|]. split; [|split; [intros HT; f_equal; auto|]].
        + intros HP. inversion HP; subst. f_equal; auto.
        + intros es'' HA HP. inversion HA as [|? e'' ? es2 HA1 HA2]; subst. cbn [map] in HP. inversion HP; subst. constructor; auto. }
    destruct G as (es' & G1 & G2 & G3 & G4 & G5 & G6).
    assert (HK : forall e'', tadds M br (TOp s j f us es) e'' -> forall k, mproper M s k (bare e'') -> tadds M br (TOp s j f us es') e'').
    { intros e'' HA. remember (TOp s j f us es) as e0 eqn:E0. induction HA as [s1 i1 f1 us1 es1 es1' HA|s1 i1 f1 us1 es1 e1 HA IHA]; injection E0 as -> -> -> -> ->; intros k HP.
      - cbn [bare] in HP. inversion HP as [? ? ? ? ? Hk Hf1 HP1]; subst. constructor. auto.
      - cbn [bare map] in HP. inversion HP as [? ? ? ? ? Hk Hf1 HP1]; subst. rewrite bk_holes in HP1 by apply Hf. inversion HP1 as [|? ? ? ? HP2 _]; subst.
        constructor. eapply IHA; eauto. }
    destruct (le_lt_dec i j) as [D|D].
    - exists (TOp s j f us es'). split; [constructor; auto|]. split; [constructor; auto|]. split; [constructor; auto|]. split; [|split; [intros HT; cbn [tvalue]; rewrite G5; auto|eauto]]. intros HP. inversion HP; subst. f_equal. auto.
    - pose proof Hf as (Hs & _). exists (TOp s (mx_top M s) (bk_form (br s)) [bk_open (br s); bk_close (br s)] [TOp s j f us es']). split; [apply ta_br; constructor; auto|]. split; [|split; [|split; [|split]]].
      + cbn [bare map]. constructor; [exact Hi|apply (Hbr s Hs)|]. rewrite bk_holes by auto. constructor; [|constructor]. cbn [fst snd]. constructor; [lia|auto..].
      + constructor; [apply (Hbr s Hs)|apply bk_toks; auto|]. rewrite bk_holes by auto. constructor; [|constructor]. constructor; auto.
      + intros HP. inversion HP; subst. lia.
      + intros HT. cbn [tvalue map]. rewrite bk_args by auto. rewrite HT by auto. rewrite G5; auto.
      + intros e'' HA HP. remember (TOp s j f us es) as e0 eqn:E0. destruct HA as [s1 i1 f1 us1 es1 es1' HA|s1 i1 f1 us1 es1 e1 HA]; injection E0 as -> -> -> -> ->.
        * cbn [bare] in HP. inversion HP; subst. lia.
        * cbn [bare map] in HP. inversion HP as [? ? ? ? ? Hk Hf1 HP1]; subst. rewrite bk_holes in HP1 by auto. inversion HP1 as [|? ? ? ? HP2 _]; subst.
          constructor. constructor; [|constructor]. eauto.
  Qed.
End Print.
