(** Parsing with corresponding tables, and the correspondence of grammars with the same rules. *)
From Coq Require Import Permutation.
From Verif Require Import Base IsoSpec Grammar GrammarSpec GrammarProofs First FirstProofs Item ItemSpec ItemProofs ItemPlain Table
  MergeProofs TableSpec TableProofs TableFacts Parse Iso.

(** Two loops in step. *)
Lemma run_sim2 {S1 R1 S2 R2} (f : S1 -> S1 + R1) (g : S2 -> S2 + R2) (R : S1 -> S2 -> Prop) (Q : R1 -> R2 -> Prop) :
  (forall s t, R s t -> match f s, g t with inl s', inl t' => R s' t' | inr a, inr b => Q a b | _, _ => False end) ->
  forall b s t, R s t -> match run f b s, run g b t with inl s', inl t' => R s' t' | inr a, inr b => Q a b | _, _ => False end.
Proof.
  intros H. induction b as [|b IH]; intros s t HR; cbn [run]; [apply H; auto|].
  specialize (IH s t HR) as IH1. destruct (run f b s), (run g b t); try contradiction; [apply IH; exact IH1|exact IH1].
Qed.

Lemma Forall2_skip {A B} (R : A -> B -> Prop) n : forall l l', Forall2 R l l' -> Forall2 R (skipn n l) (skipn n l').
Proof. induction n as [|n IH]; intros l l' HF; [exact HF|]. destruct HF; simpl; auto. Qed.
Lemma Forall2_len {A B} (R : A -> B -> Prop) l l' : Forall2 R l l' -> length l = length l'.
Proof. induction 1; simpl; congruence. Qed.

Section Drive.
  Variables (g g' : grammar) (X X' : sym -> sym) (P P' K K' : nat -> nat).
  Hypothesis H : iso g g' X X' P P' K K'.
  Let H' : iso g' g X' X P' P K' K := iso_sym _ _ _ _ _ _ _ _ H.
  Let Pl := bij_l _ _ (is_P _ _ _ _ _ _ _ _ H).
  Let Pr := bij_r _ _ (is_P _ _ _ _ _ _ _ _ H).
  Let Kl := bij_l _ _ (is_K _ _ _ _ _ _ _ _ H).
  Let Kr := bij_r _ _ (is_K _ _ _ _ _ _ _ _ H).
  Variables (start start' : str).
  Hypothesis W : wf_grammar g start.
  Hypothesis W' : wf_grammar g' start'.
  Hypothesis He : eps_free g.
  Hypothesis He' : eps_free g'.
  Variables (hash hash' : list item -> N) (t t' : tables) (lr0 lr0' : list item_set) (m m' : list (nat * nat)).
  Hypothesis B : built hash g t lr0 m.
  Hypothesis B' : built hash' g' t' lr0' m'.
  Local Notation srel := (srel P' K' t t').
  Local Notation arel := (arel P P' K' t t').

  Lemma srel_flip i i' : srel i i' -> Iso.srel P K t' t i' i.
  Proof using H.
    intros (s & s' & Hs & Hs' & E). exists s', s. split; auto. split; auto. intros p d k. unfold im.
    rewrite (E (P p) d (K k)). unfold im. rewrite Pl, Kl. reflexivity.
  Qed.

  Lemma iso_action i i' k : srel i i' ->
    match tbl_get (t_action t) i k, tbl_get (t_action t') i' (K k) with
    | Some a, Some a' => arel a a'
    | None, None => True
    | _, _ => False
    end.
  Proof using H W W' He He' B B'.
    intros Hi. destruct (tbl_get (t_action t) i k) as [a|] eqn:E.
    - destruct (fw_action _ _ _ _ _ _ _ _ H _ _ W W' He He' _ _ _ _ _ _ _ _ B B' i i' k a Hi E) as (a' & -> & Ha). exact Ha.
    - destruct (tbl_get (t_action t') i' (K k)) as [a'|] eqn:E'; [|exact I].
      destruct (fw_action _ _ _ _ _ _ _ _ H' _ _ W' W He' He _ _ _ _ _ _ _ _ B' B i' i (K k) a' (srel_flip _ _ Hi) E') as (a & Ea & _).
      rewrite Kl in Ea. congruence.
  Qed.
  Lemma iso_goto i i' A : srel i i' ->
    match tbl_get (t_goto t) i A, tbl_get (t_goto t') i' (rn X A) with
    | Some j, Some j' => srel j j'
    | None, None => True
    | _, _ => False
    end.
  Proof using H W W' He He' B B'.
    intros Hi. destruct (tbl_get (t_goto t) i A) as [j|] eqn:E.
    - destruct (fw_goto _ _ _ _ _ _ _ _ H _ _ W W' He He' _ _ _ _ _ _ _ _ B B' i i' A j Hi E) as (j' & -> & Hj). exact Hj.
    - destruct (tbl_get (t_goto t') i' (rn X A)) as [j'|] eqn:E'; [|exact I].
      destruct (fw_goto _ _ _ _ _ _ _ _ H' _ _ W' W He' He _ _ _ _ _ _ _ _ B' B i' i (rn X A) j' (srel_flip _ _ Hi) E') as (j & Ej & _).
      rewrite (rn_back _ _ _ (is_X _ _ _ _ _ _ _ _ H) (is_kind _ _ _ _ _ _ _ _ H)) in Ej. congruence.
  Qed.

  Lemma zero_core (g0 : grammar) start0 hash0 t0 l0 m0 : wf_grammar g0 start0 -> eps_free g0 -> built hash0 g0 t0 l0 m0 ->
    exists s, nth_error (t_states t0) 0 = Some s /\ same_core (has s) (clo g0 (F_std g0) init_set).
  Proof.
    intros W0 He0 B0. pose proof (b_items _ _ _ _ _ B0) as El. pose proof (b_merged _ _ _ _ _ B0) as Hm.
    destruct (lr_zero g0 _ W0 l0 El _ m0 Hm) as (i0 & H0 & Hr & Hz).
    destruct (mg_source _ _ _ Hm 0 0 Hz) as (s0 & s & E0 & Hs). rewrite H0 in E0. injection E0 as <-.
    destruct (lalr_member l0 _ m0 Hm 0 0 i0 s Hz H0 Hs) as [Ec _].
    exists s. split; auto. apply (same_core_sets s i0); auto.
    + eapply (lalr_wf l0 _ m0 Hm); eauto using nth_error_In.
    + eapply (lr_wf g0 _ W0 l0 El); eauto using nth_error_In.
    + intros p d k; reflexivity.
    + destruct (lr_final g0 _ W0 l0 El) as (_ & _ & _ & _ & HG).
      intros p d k. rewrite (Hr p d k). apply (clo_std g0 _ W0 He0). apply HG. constructor.
  Qed.

  Lemma srel_zero : srel 0 0.
  Proof using H W W' He He' B B'.
    destruct (zero_core g start hash t lr0 m W He B) as (s & Hs & Hc).
    destruct (zero_core g' start' hash' t' lr0' m' W' He' B') as (s' & Hs' & Hc').
    destruct (srel_total _ _ _ _ _ _ _ _ H _ _ W W' He He' _ _ _ _ _ _ _ _ B B' 0 s Hs) as (i' & s1 & s1' & Hs1 & Hs1' & E).
    rewrite Hs in Hs1. injection Hs1 as <-.
    assert (i' = 0) as ->; [|exists s, s1'; auto].
    apply (core_state _ start' W' He' _ _ _ _ B' i' 0 s1' s' Hs1' Hs').
    apply (same_core_eq _ _ _ E). intros p d. rewrite (Hc' p d).
    apply (im_core _ _ _ _ _ _ _ _ H) in Hc. rewrite (Hc p d).
    assert (G : set_eq (clo g' (F_std g') init_set) (im P' K' (clo g (F_std g) init_set))).
    { intros q e j. rewrite (clo_ext _ _ _ _ (im_init _ _ _ _ _ _ _ _ H) q e j). apply (im_clo _ _ _ _ _ _ _ _ H). }
    split; intros [k Hk]; exists k; apply G, Hk.
  Qed.

  Definition prel (s s' : pstate) : Prop :=
    Forall2 srel (ps_stack s) (ps_stack s') /\ ps_i s' = ps_i s /\ ps_a s' = K (ps_a s) /\ ps_trace s' = map P (ps_trace s).

  Lemma iso_step tokens s s' : prel s s' ->
    match parse_step g t tokens s, parse_step g' t' (map K tokens) s' with
    | inl u, inl u' => prel u u'
    | inr a, inr a' => a' = rmap (map P) a
    | _, _ => False
    end.
  Proof using H W W' He He' B B'.
    intros (HF & Hi & Ha & Htr). unfold parse_step.
    destruct (ps_stack s) as [|x l] eqn:E1, (ps_stack s') as [|x' l'] eqn:E2; [reflexivity|inversion HF..|].
    assert (Hx : srel x x') by (inversion HF; assumption).
    set (st := x :: l) in *. set (st' := x' :: l') in *. clearbody st st'. clear E1 E2.
    pose proof (iso_action x x' (ps_a s) Hx) as HA. rewrite Ha.
    destruct (tbl_get (t_action t) x (ps_a s)) as [a|], (tbl_get (t_action t') x' (K (ps_a s))) as [a'|]; try contradiction; [|reflexivity].
    destruct a as [q|p|], a' as [q'|p'|]; simpl in HA; try contradiction.
    - unfold next_token. rewrite nth_error_map, Hi. destruct (nth_error tokens (S (ps_i s))); (split; [constructor; auto|split; [reflexivity|split; [reflexivity|exact Htr]]]).
    - subst p'. unfold get_production. destruct (nth_error (g_prods g) p) as [pr|] eqn:Ep.
      + destruct (fw_prod _ _ _ _ _ _ _ _ H p pr Ep) as (pr' & Ep' & En & Es). rewrite Ep', Es, map_length, <- (Forall2_len _ _ _ HF).
        destruct (length st <? length (p_syms pr)); [reflexivity|].
        pose proof (Forall2_skip _ (length (p_syms pr)) _ _ HF) as HS.
        destruct (skipn (length (p_syms pr)) st) as [|y k], (skipn (length (p_syms pr)) st') as [|y' k']; [reflexivity|inversion HS..|].
        assert (Hy : srel y y') by (inversion HS; assumption). rewrite En.
        pose proof (iso_goto y y' (p_name pr) Hy) as HG.
        destruct (tbl_get (t_goto t) y (p_name pr)) as [q|], (tbl_get (t_goto t') y' (rn X (p_name pr))) as [q'|]; try contradiction; [|reflexivity].
        split; [|split; [|split]]; simpl; auto. rewrite map_app, Htr. reflexivity.
      + rewrite (fw_none _ _ _ _ _ _ _ _ H p Ep). reflexivity.
    - simpl. rewrite Htr. reflexivity.
  Qed.

  Lemma iso_count : length (g_prods g') = length (g_prods g).
  Proof using H.
    assert (G : forall g g' X X' P P' K K', iso g g' X X' P P' K K' -> length (g_prods g) <= length (g_prods g')).
    { clear. intros g g' X X' P P' K K' H.
      assert (Hi : forall p, p < length (g_prods g) -> P p < length (g_prods g')).
      { intros p Hp. apply nth_error_Some in Hp. destruct (nth_error (g_prods g) p) as [pr|] eqn:E; [|tauto].
        destruct (fw_prod _ _ _ _ _ _ _ _ H p pr E) as (pr' & E' & _). apply nth_error_Some. congruence. }
      assert (Hn : NoDup (map P (seq 0 (length (g_prods g))))).
      { apply FinFun.Injective_map_NoDup; [|apply seq_NoDup]. intros a b Eab.
        rewrite <- (bij_l _ _ (is_P _ _ _ _ _ _ _ _ H) a), Eab. apply (bij_l _ _ (is_P _ _ _ _ _ _ _ _ H)). }
      pose proof (NoDup_incl_length Hn (l' := seq 0 (length (g_prods g')))) as Hl. rewrite map_length, !seq_length in Hl. apply Hl.
      intros y Hy. apply in_map_iff in Hy as (p & <- & Hp). apply in_seq in Hp. apply in_seq. specialize (Hi p). lia. }
    apply Nat.le_antisymm; [exact (G _ _ _ _ _ _ _ _ H')|exact (G _ _ _ _ _ _ _ _ H)].
  Qed.

  Lemma iso_parse tokens : parse_impl g' t' (map K tokens) = rmap (map P) (parse_impl g t tokens).
  Proof using H W W' He He' B B'.
    destruct tokens as [|a tokens]; [reflexivity|]. unfold parse_impl. cbn [map].
    assert (Eb : parse_bits g' (K a :: map K tokens) = parse_bits g (a :: tokens)).
    { unfold parse_bits. cbn [length]. rewrite map_length, iso_count. reflexivity. }
    rewrite Eb.
    pose proof (run_sim2 (parse_step g t (a :: tokens)) (parse_step g' t' (map K (a :: tokens))) prel _ (iso_step (a :: tokens))
      (parse_bits g (a :: tokens)) (parse_init a) (parse_init (K a))) as Hs. cbn [map] in Hs.
    assert (Hp : prel (parse_init a) (parse_init (K a))).
    { split; [constructor; [exact srel_zero|constructor]|auto]. }
    specialize (Hs Hp). clear Hp.
    destruct (run (parse_step g t (a :: tokens)) (parse_bits g (a :: tokens)) (parse_init a)),
      (run (parse_step g' t' (K a :: map K tokens)) (parse_bits g (a :: tokens)) (parse_init (K a))); try contradiction; [reflexivity|exact Hs].
  Qed.
End Drive.
