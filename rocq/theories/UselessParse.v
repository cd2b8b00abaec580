(** Parsing with tables of grammars that agree on the rules in use. *)
From Verif Require Import Base IsoSpec Grammar GrammarSpec GrammarProofs First FirstProofs Item ItemSpec ItemProofs ItemPlain Table
  MergeProofs TableSpec TableProofs TableFacts Auto Parse ParseSpec ParseProofs ParseTerm Iso IsoParse Useless.

(** Two loops in step, step by step. *)
Lemma nsteps_sim2 {S1 R1 S2 R2} (f : S1 -> S1 + R1) (g : S2 -> S2 + R2) (R : S1 -> S2 -> Prop) (Q : R1 -> R2 -> Prop) :
  (forall s t, R s t -> match f s, g t with inl s', inl t' => R s' t' | inr a, inr b => Q a b | _, _ => False end) ->
  forall n s s' t, R s t -> nsteps f n s s' -> exists t', nsteps g n t t' /\ R s' t'.
Proof.
  intros H n s s' t HR Hn. revert t HR. induction Hn as [s|n s s1 s' E Hn IH]; intros t HR; [exists t; split; [constructor|exact HR]|].
  pose proof (H s t HR) as Hs. rewrite E in Hs. destruct (g t) as [t1|b] eqn:Et; [|contradiction].
  destruct (IH t1 Hs) as (t' & Ht' & HR'). exists t'. split; auto. econstructor; eauto.
Qed.

Section Drive.
  Variables (g g' : grammar) (P P' K K' : nat -> nat).
  Hypothesis H : part g g' P P' K K'.
  Let H' : part g' g P' P K' K := part_sym _ _ _ _ _ _ H.
  Let Pl := bij_l _ _ (pt_P _ _ _ _ _ _ H).
  Let Kl := bij_l _ _ (pt_K _ _ _ _ _ _ H).
  Variables (start start' : str).
  Hypothesis W : wf_grammar g start.
  Hypothesis W' : wf_grammar g' start'.
  Hypothesis He : eps_free g.
  Hypothesis He' : eps_free g'.
  Variables (hash hash' : list item -> N) (t t' : tables) (lr0 lr0' : list item_set) (m m' : list (nat * nat)).
  Hypothesis B : built hash g t lr0 m.
  Hypothesis B' : built hash' g' t' lr0' m'.
  Local Notation srel := (srel P' K' t t').
  Local Notation arel := (arel P P' K' t t').

  Lemma psrel_flip i i' : srel i i' -> Iso.srel P K t' t i' i.
  Proof using H.
    intros (s & s' & Hs & Hs' & E). exists s', s. split; auto. split; auto. intros p d k. unfold im.
    rewrite (E (P p) d (K k)). unfold im. rewrite Pl, Kl. reflexivity.
  Qed.

  Lemma part_action i i' k : srel i i' ->
    match tbl_get (t_action t) i k, tbl_get (t_action t') i' (K k) with
    | Some a, Some a' => arel a a'
    | None, None => True
    | _, _ => False
    end.
  Proof using H W W' He He' B B'.
    intros Hi. destruct (tbl_get (t_action t) i k) as [a|] eqn:E.
    - destruct (pw_action _ _ _ _ _ _ H _ _ W W' He He' _ _ _ _ _ _ _ _ B B' i i' k a Hi E) as (a' & -> & Ha). exact Ha.
    - destruct (tbl_get (t_action t') i' (K k)) as [a'|] eqn:E'; [|exact I].
      destruct (pw_action _ _ _ _ _ _ H' _ _ W' W He' He _ _ _ _ _ _ _ _ B' B i' i (K k) a' (psrel_flip _ _ Hi) E') as (a & Ea & _).
      rewrite Kl in Ea. congruence.
  Qed.
  Lemma part_goto i i' A : srel i i' ->
    match tbl_get (t_goto t) i A, tbl_get (t_goto t') i' A with
    | Some j, Some j' => srel j j'
    | None, None => True
    | _, _ => False
    end.
  Proof using H W W' He He' B B'.
    intros Hi. destruct (tbl_get (t_goto t) i A) as [j|] eqn:E.
    - destruct (pw_goto _ _ _ _ _ _ H _ _ W W' He He' _ _ _ _ _ _ _ _ B B' i i' A j Hi E) as (j' & -> & Hj). exact Hj.
    - destruct (tbl_get (t_goto t') i' A) as [j'|] eqn:E'; [|exact I].
      destruct (pw_goto _ _ _ _ _ _ H' _ _ W' W He' He _ _ _ _ _ _ _ _ B' B i' i A j' (psrel_flip _ _ Hi) E') as (j & Ej & _).
      congruence.
  Qed.
  (** Reductions are by rules in use. *)
  Lemma reduce_used i k p : tbl_get (t_action t) i k = Some (Reduce p) -> reachable g p /\ exists pr, nth_error (g_prods g) p = Some pr.
  Proof using H W He B.
    intros Ha. apply (b_action _ _ _ _ _ B) in Ha as (s & q & d & Hs & [(Hc & Hk & E)|(x & j & _ & _ & _ & _ & _ & E)]); [|discriminate].
    assert (q = p) as <- by (destruct ((k =? 0) && (q =? 0)); [discriminate|injection E; auto]).
    split; [exact (proj1 (has_good _ _ _ _ _ _ H _ W He _ _ _ _ B i s Hs _ _ _ Hk))|]. destruct Hc as (pr & Hp & _). eauto.
  Qed.

  Lemma psrel_zero : srel 0 0.
  Proof using H W W' He He' B B'.
    destruct (zero_core g start hash t lr0 m W He B) as (s & Hs & Hc).
    destruct (zero_core g' start' hash' t' lr0' m' W' He' B') as (s' & Hs' & Hc').
    destruct (psrel_total _ _ _ _ _ _ H _ _ W W' He He' _ _ _ _ _ _ _ _ B B' 0 s Hs) as (i' & s1 & s1' & Hs1 & Hs1' & E).
    rewrite Hs in Hs1. injection Hs1 as <-.
    assert (i' = 0) as ->; [|exists s, s1'; auto].
    apply (core_state _ start' W' He' _ _ _ _ B' i' 0 s1' s' Hs1' Hs').
    apply (same_core_eq _ _ _ E). intros p d. rewrite (Hc' p d).
    apply (pim_core _ _ _ _ _ _ H) in Hc. rewrite (Hc p d).
    assert (G : set_eq (clo g' (F_std g') init_set) (im P' K' (clo g (F_std g) init_set))).
    { intros q e j. rewrite (clo_ext _ _ _ _ (pim_init _ _ _ _ _ _ H) q e j). apply (pim_clo _ _ _ _ _ _ H), (init_good _ _ _ _ _ _ H). }
    split; intros [k Hk]; exists k; apply G, Hk.
  Qed.

  Definition prel (s s' : pstate) : Prop :=
    Forall2 srel (ps_stack s) (ps_stack s') /\ ps_i s' = ps_i s /\ ps_a s' = K (ps_a s) /\ ps_trace s' = map P (ps_trace s).

  Lemma part_step tokens s s' : prel s s' ->
    match parse_step g t tokens s, parse_step g' t' (map K tokens) s' with
    | inl u, inl u' => prel u u'
    | inr a, inr a' => a' = rmap (map P) a
    | _, _ => False
    end.
  Proof using H W W' He He' B B'.
    intros (HF & Hi & Ha & Htr). unfold parse_step.
    destruct (ps_stack s) as [|x l] eqn:E1, (ps_stack s') as [|x' l'] eqn:E2; [reflexivity|inversion HF..|].
    assert (Hx : srel x x') by (inversion HF; assumption).
    set (st := x :: l) in *. set (st' := x' :: l') in *. clearbody st st'. clear E1 E2.
    pose proof (part_action x x' (ps_a s) Hx) as HA. rewrite Ha.
    destruct (tbl_get (t_action t) x (ps_a s)) as [a|] eqn:Eact, (tbl_get (t_action t') x' (K (ps_a s))) as [a'|]; try contradiction; [|reflexivity].
    destruct a as [q|p|], a' as [q'|p'|]; simpl in HA; try contradiction.
    - unfold next_token. rewrite nth_error_map, Hi. destruct (nth_error tokens (S (ps_i s))); (split; [constructor; auto|split; [reflexivity|split; [reflexivity|exact Htr]]]).
    - subst p'. unfold get_production. destruct (reduce_used _ _ _ Eact) as [Hr [pr Ep]]. rewrite Ep.
      destruct (pt_prod _ _ _ _ _ _ H p pr Hr Ep) as (pr' & Ep' & En & Es). rewrite Ep', Es, <- (Forall2_len _ _ _ HF).
      destruct (length st <? length (p_syms pr)); [reflexivity|].
      pose proof (Forall2_skip _ (length (p_syms pr)) _ _ HF) as HS.
      destruct (skipn (length (p_syms pr)) st) as [|y k], (skipn (length (p_syms pr)) st') as [|y' k']; [reflexivity|inversion HS..|].
      assert (Hy : srel y y') by (inversion HS; assumption). rewrite En.
      pose proof (part_goto y y' (p_name pr) Hy) as HG.
      destruct (tbl_get (t_goto t) y (p_name pr)) as [q|], (tbl_get (t_goto t') y' (p_name pr)) as [q'|]; try contradiction; [|reflexivity].
      split; [|split; [|split]]; simpl; auto. rewrite map_app, Htr. reflexivity.
    - simpl. rewrite Htr. reflexivity.
  Qed.

  Hypothesis Hf : eof_free g.
  Hypothesis Hf' : eof_free g'.
  Hypothesis A : auto g t.
  Hypothesis A' : auto g' t'.

  Lemma part_parse tokens w : ended tokens w -> parse_impl g' t' (map K tokens) = rmap (map P) (parse_impl g t tokens).
  Proof using H W W' He He' B B' Hf Hf' A A'.
    intros Hend.
    assert (Hend' : ended (map K tokens) (map K w)).
    { destruct Hend as [-> Hw]. split; [rewrite map_app; simpl; rewrite (pt_K0 _ _ _ _ _ _ H); reflexivity|].
      intros Hin. apply in_map_iff in Hin as (k & Ek & Hk). apply Hw. replace 0 with k; auto.
      rewrite <- (Kl k), Ek. exact (pt_K0 _ _ _ _ _ _ H'). }
    destruct (parse_ends g _ W t A He tokens w Hend Hf) as (a & Ea & HE).
    destruct (parse_ends g' _ W' t' A' He' _ _ Hend' Hf') as (a' & Ea' & HE').
    rewrite (map_nth_error K _ _ Ea) in Ea'. injection Ea' as <-.
    assert (Hp : prel (parse_init a) (parse_init (K a))).
    { split; [constructor; [exact psrel_zero|constructor]|auto]. }
    pose proof (nsteps_sim2 _ _ _ _ (part_step tokens)) as Hsim.
    destruct HE as [[E Hc]|(n & c & r & Hn & Er & E)].
    - rewrite E. apply cyclic_forever in Hc. destruct HE' as [[E' _]|(n' & c' & r' & Hn' & Er' & _)]; [exact E'|exfalso].
      destruct (Hc n') as [c Hn]. destruct (Hsim _ _ _ _ Hp Hn) as (c1 & Hn1 & Hp1).
      pose proof (nsteps_det _ _ _ _ _ Hn' Hn1) as <-. pose proof (part_step tokens _ _ Hp1) as Hs. rewrite Er' in Hs.
      destruct (parse_step g t tokens c) as [c2|r] eqn:E2; [contradiction|]. eapply forever_no_end; eauto.
    - destruct (Hsim _ _ _ _ Hp Hn) as (c1 & Hn1 & Hp1). pose proof (part_step tokens _ _ Hp1) as Hs. rewrite Er in Hs.
      destruct (parse_step g' t' (map K tokens) c1) as [c2|r1] eqn:E2; [contradiction|].
      destruct HE' as [[_ Hc']|(n' & c' & r' & Hn' & Er' & E')].
      + apply cyclic_forever in Hc'. exfalso. eapply forever_no_end; eauto.
      + rewrite E, E', <- Hs.
        assert (n' = n) as ->.
        { destruct (Nat.lt_trichotomy n' n) as [L|[->|L]]; auto; exfalso.
          - replace n with (n' + (n - n')) in Hn1 by lia. apply nsteps_split in Hn1 as (c3 & H3 & H4).
            pose proof (nsteps_det _ _ _ _ _ Hn' H3) as <-. destruct (n - n') eqn:El; [lia|]. inversion H4; congruence.
          - replace n' with (n + (n' - n)) in Hn' by lia. apply nsteps_split in Hn' as (c3 & H3 & H4).
            pose proof (nsteps_det _ _ _ _ _ Hn1 H3) as <-. destruct (n' - n) eqn:El; [lia|]. inversion H4; congruence. }
        pose proof (nsteps_det _ _ _ _ _ Hn1 Hn') as <-. congruence.
  Qed.
End Drive.
