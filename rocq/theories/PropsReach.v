(** Property C61: the states of the lexer's automaton. *)
From Verif Require Import Base Regex Nfa NfaProofs Overlap OverlapProofs OverlapLaminar
  Dfa DfaProofs Lex LexSpec LexLoop NfaLive LexNfa LexProofs DfaReach PropsLex.

(** ** C61 *)

(** The full statement (every state is reached by some text, and no two states do the same) is false.

    [a-d]x|[a-i]y|bz|[b-f]w: one state is entered by a single edge, and the edge before it takes its
    only character. *)
Theorem C61_reachable_refuted :
  exists n d s, built n /\ from_nfa n = Ok d /\ s < length (d_first d) /\ forall w, ~ follows d 0 w s.
Proof.
  destruct (from_regex (HAlt ex_overlap)) as [n| |] eqn:En; [|vm_compute in En; discriminate En..].
  pose proof (built_regex _ _ En) as Hb.
  destruct (from_nfa n) as [d| |] eqn:Ed; [|vm_compute in En; injection En as <-; vm_compute in Ed; discriminate Ed..].
  exists n, d, 3. split; [exact Hb|]. split; [exact Ed|]. clear Hb.
  vm_compute in En. injection En as <-. vm_compute in Ed. injection Ed as <-.
  split; [simpl; lia|].
  set (d := DFA _ _ _ _).
  assert (G : forall s w t, follows d s w t -> s <> 3 -> t <> 3).
  { induction 1 as [s|s c w t l1 e l2 El Hf Hm Hmin H IH]; auto. intros Hs. apply IH. intros E3.
    unfold d in El. cbn [d_edges] in El.
    do 2 (destruct l1 as [|? l1]; [injection El as <- _; discriminate E3|injection El as <- El]).
    destruct l1 as [|? l1]; [injection El as <- _|].
    2: { do 16 (injection El as <- El; destruct l1 as [|? l1]; [first [discriminate El|injection El as <- _; discriminate E3]|]). discriminate El. }
    cbn in Hf, Hm. pose proof (Hmin _ (or_intror (or_introl eq_refl)) Hf) as Hx. cbn in Hx.
    unfold matches in Hm, Hx. cbn in Hm, Hx.
    apply andb_true_iff in Hm as [H1 H2]. apply N.leb_le in H1. apply N.ltb_lt in H2.
    apply andb_false_iff in Hx as [Hx|Hx]; [apply N.leb_gt in Hx|apply N.ltb_ge in Hx]; lia. }
  intros w Hw. apply (G 0 w 3 Hw); auto.
Qed.
Print Assumptions C61_reachable_refuted.

(** ac|bc: after 'a' and after 'b' the automaton is in two different states, which accept the same texts:
    it is not the smallest one. *)
Theorem C61_distinguishable_refuted :
  exists n d s s', built n /\ from_nfa n = Ok d /\ s <> s' /\
    (exists w, follows d 0 w s) /\ (exists w, follows d 0 w s') /\
    forall v, (exists t, follows d s v t /\ dfa_state_is_accepting d t = true) <->
              (exists t, follows d s' v t /\ dfa_state_is_accepting d t = true).
Proof.
  destruct (from_regex (HAlt [ex_lit [97; 99]; ex_lit [98; 99]]%N)) as [n| |] eqn:En; [|vm_compute in En; discriminate En..].
  pose proof (built_regex _ _ En) as Hb.
  destruct (from_nfa n) as [d| |] eqn:Ed; [|vm_compute in En; injection En as <-; vm_compute in Ed; discriminate Ed..].
  exists n, d, 1, 2. split; [exact Hb|]. split; [exact Ed|]. clear Hb. split; [discriminate|].
  vm_compute in En. injection En as <-. vm_compute in Ed. injection Ed as <-.
  set (d := DFA _ _ _ _).
  split; [exists [97]%N; eapply (follows_cons d 0 97 [] 1 [] (DEdge 0 (97, 98)%N 1)); [reflexivity..|intros ? []|constructor]|].
  split.
  { exists [98]%N. eapply (follows_cons d 0 98 [] 2 [DEdge 0 (97, 98)%N 1] (DEdge 0 (98, 99)%N 2)); [reflexivity..| |constructor].
    intros e [<-|[]] _. reflexivity. }
  assert (G : forall s s', (s = 1 /\ s' = 2) \/ (s = 2 /\ s' = 1) ->
            forall v t, follows d s v t -> dfa_state_is_accepting d t = true -> follows d s' v t).
  { intros s s' Hs v t Hf Ha. destruct v as [|c v].
    - inversion Hf; subst. destruct Hs as [(-> & _)|(-> & _)]; discriminate Ha.
    - inversion Hf as [|? ? ? ? l1 e l2 El Hfr Hm _ Hr]; subst.
      assert (Hin : In e (d_edges d)) by (rewrite El; apply in_or_app; simpl; auto).
      assert (He : de_label e = (99, 100)%N /\ de_to e = 3).
      { simpl in Hin. destruct Hs as [(E & _)|(E & _)]; rewrite E in *;
        destruct Hin as [<-|[<-|[<-|[<-|[]]]]]; try discriminate E; auto. }
      destruct He as (E1 & E2). rewrite E1 in Hm. rewrite E2 in Hr.
      destruct Hs as [(_ & ->)|(_ & ->)].
      + apply (follows_cons d 2 c v t [DEdge 0 (97, 98)%N 1; DEdge 0 (98, 99)%N 2; DEdge 1 (99, 100)%N 3] (DEdge 2 (99, 100)%N 3) []); auto.
        intros e' [<-|[<-|[<-|[]]]] Hfr'; discriminate Hfr'.
      + apply (follows_cons d 1 c v t [DEdge 0 (97, 98)%N 1; DEdge 0 (98, 99)%N 2] (DEdge 1 (99, 100)%N 3) [DEdge 2 (99, 100)%N 3]); auto.
        intros e' [<-|[<-|[]]] Hfr'; discriminate Hfr'. }
  intros v. split; intros (t & H1 & H2); exists t; split; auto; eapply G; eauto.
Qed.
Print Assumptions C61_distinguishable_refuted.

(** a[x&&y]: no token starts with 'a', and yet the automaton has a state for it, from which nothing is accepted. *)
Theorem C61_live_refuted :
  exists n d s, built n /\ from_nfa n = Ok d /\ (exists w, follows d 0 w s) /\
    forall v t, follows d s v t -> dfa_state_is_accepting d t = false.
Proof.
  destruct (from_regex (HConcat [HLit 97; HClass []]%N)) as [n| |] eqn:En; [|vm_compute in En; discriminate En..].
  pose proof (built_regex _ _ En) as Hb.
  destruct (from_nfa n) as [d| |] eqn:Ed; [|vm_compute in En; injection En as <-; vm_compute in Ed; discriminate Ed..].
  exists n, d, 1. split; [exact Hb|]. split; [exact Ed|]. clear Hb.
  vm_compute in En. injection En as <-. vm_compute in Ed. injection Ed as <-.
  set (d := DFA _ _ _ _).
  split; [exists [97]%N; eapply (follows_cons d 0 97 [] 1 [] (DEdge 0 (97, 98)%N 1)); [reflexivity..|intros ? []|constructor]|].
  intros v t Hf. inversion Hf as [|? ? ? ? l1 e l2 El Hfr Hm _ Hr]; subst; [reflexivity|].
  assert (Hin : In e (d_edges d)) by (rewrite El; apply in_or_app; simpl; auto).
  destruct Hin as [<-|[]]. discriminate Hfr.
Qed.
Print Assumptions C61_live_refuted.

(** It holds of reachability when the pieces refine the ranges, and then every state but the start can be
    continued to the end of a token: nothing is generated for texts that no token begins with.
    Different states stand for different sets of NFA states. *)
Theorem C61_states_useful_partial :
  forall tokens L, from_tokens tokens = Ok L ->
  split_refines (map snd tokens) -> (forall h, In h (map snd tokens) -> productive h) ->
  forall s, s < length (d_first (lx_dfa L)) ->
  (exists w, follows (lx_dfa L) 0 w s) /\
  (forall w, follows (lx_dfa L) 0 w s -> s <> 0 ->
     exists v h t, In h (map snd tokens) /\ Lang h (w ++ v) /\
       follows (lx_dfa L) s v t /\ dfa_state_is_accepting (lx_dfa L) t = true) /\
  (forall s' q, map_get s (dfa_to_nfa (lx_dfa L)) = Some q -> map_get s' (dfa_to_nfa (lx_dfa L)) = Some q -> s = s').
Proof.
  intros tokens L HL Hsp Hp s Hs.
  destruct (lexer_parts tokens L HL) as
    (ns & Nf & al & ds & HF & ENf & Hw & Hst & Hno & Ed & Eal & Hok & _ & _ & Hacc & Hlang & Hlab & Hlive).
  assert (Ha : alpha_ok (edge_labels (edges Nf)) al).
  { apply split_alpha_ok; auto. intros r p c c' Hr Hpp H1 H2 H3.
    assert (Eset : set_of_list (edge_labels (edges Nf)) = set_of_list (flat_map written (map snd tokens))).
    { apply ssorted_ext; try apply set_of_list_sorted. intros x. rewrite !set_of_list_In. apply Hlab. }
    rewrite Eset in Eal. apply (Hsp al Eal r p c c'); auto. apply Hlab; auto. }
  destruct (from_nfa_tracks Nf (lx_dfa L) Hw Hst Hno (ex_intro _ al (conj Eal Ha)) Ed) as (T1 & T2 & T3).
  split; [|split].
  - eapply dfa_reached; eauto. eapply from_nfa_entered; eauto.
  - intros w Hf Hne.
    assert (Hwne : w <> []) by (intros ->; inversion Hf; subst; auto).
    destruct (proj1 (Hlive Hp w Hwne)) as (h & v & Hh & Hl); [apply T1; eauto|].
    pose proof Hh as Hi. apply In_nth_error in Hi as (i & Hi).
    assert (exists o n, nth_error (blocks 1 ns) i = Some (o, n)) as (o & n & Hb).
    { rewrite nth_error_map in Hi. destruct (nth_error tokens i) as [td|] eqn:Et; [|discriminate].
      destruct (Forall2_nth_l _ _ _ _ _ HF Et) as (n & Hn & _). destruct (blocks_nth_ex 1 ns i n Hn) as (o & Ho). eauto. }
    pose proof (proj2 (Hlang i o n h (w ++ v) Hb Hi) Hl) as Hpath.
    destruct (proj2 (T1 (w ++ v))) as (t & Ht); [eauto|].
    exists v, h, t. split; auto. split; auto.
    assert (Hsplit : exists t', follows (lx_dfa L) 0 w t' /\ follows (lx_dfa L) t' v t).
    { clear - Ht. revert Ht. generalize 0. induction w as [|c w IH]; intros k Ht; simpl in Ht.
      - exists k. split; auto. constructor.
      - inversion Ht as [|? ? ? ? l1 e l2 X1 X2 X3 X4 X5]; subst. destruct (IH _ X5) as (t' & H1 & H2). exists t'. split; auto. eapply follows_cons; eauto. }
    destruct Hsplit as (t' & F1 & F2). rewrite (follows_det _ _ _ _ _ Hf F1). split; auto.
    destruct (T2 (w ++ v) t) as (q & Hq & Hx); auto.
    { intros E. apply app_eq_nil in E as []. auto. }
    unfold dfa_state_is_accepting. rewrite Hq. apply existsb_exists. exists (1 + o). split; [apply Hx; auto|].
    destruct Hok as (_ & _ & -> & _). apply set_mem_In. apply Hacc. eauto.
  - intros s' q H1 H2. pose proof Hok as ((c0 & (Hnd & _) & _) & Hmap & _).
    rewrite (map_ok_get ds _ s Hmap) in H1. rewrite (map_ok_get ds _ s' Hmap) in H2.
    destruct s as [|s]; [discriminate|]. destruct s' as [|s']; [discriminate|].
    eapply NoDup_nth_error; eauto; [|congruence]. apply nth_error_Some. congruence.
Qed.
Print Assumptions C61_states_useful_partial.

(** The example lexer meets the hypotheses, and has at least four states. *)
Example C61_nonvacuous : exists L, from_tokens ex_tokens = Ok L /\ split_refines (map snd ex_tokens) /\
  (forall h, In h (map snd ex_tokens) -> productive h) /\ 4 <= length (d_first (lx_dfa L)).
Proof.
  destruct (from_tokens ex_tokens) as [L| |] eqn:E; [|vm_compute in E; discriminate E..].
  exists L. split; auto. split; [|split; [apply ex_tokens_productive|]].
  - apply split_b_ok. vm_compute. reflexivity.
  - vm_compute in E. injection E as <-. simpl. lia.
Qed.
