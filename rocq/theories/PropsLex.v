(** Properties C05-C15: the DFA and the lexer. *)
From Verif Require Import Base Regex Nfa NfaProofs Overlap OverlapProofs OverlapLaminar
  Dfa DfaProofs Lex LexSpec LexLoop NfaLive LexNfa LexProofs Utf8Spec Utf8Proofs.

(** Names used by the examples: 97 = 'a', 98 = 'b', ... *)
Definition ex_lit (w : list N) : hir := HConcat (map HLit w).
Definition ex_tok (name : list N) (h : hir) : token_def * hir := (TokenDef name true None, h).

Lemma sub_lit_inv x c : subterm x (HLit c) -> x = HLit c.
Proof. intros H; inversion H; auto. Qed.
Lemma sub_class_inv x rs : subterm x (HClass rs) -> x = HClass rs.
Proof. intros H; inversion H; auto. Qed.
Lemma sub_rep_inv x k h : subterm x (HRep k h) -> x = HRep k h \/ subterm x h.
Proof. intros H; inversion H; auto. Qed.
Lemma sub_concat_inv x hs : subterm x (HConcat hs) -> x = HConcat hs \/ exists h, In h hs /\ subterm x h.
Proof. intros H; inversion H; eauto. Qed.
Lemma ex_lit_sub x w : subterm x (ex_lit w) -> x = ex_lit w \/ exists c, In c w /\ x = HLit c.
Proof.
  intros H. apply sub_concat_inv in H as [H|(h & Hh & H)]; auto. apply in_map_iff in Hh as (c & <- & Hc).
  apply sub_lit_inv in H. eauto.
Qed.

(** ** C05 *)

(** Construction returns for every NFA the library can build; its states are pairwise distinct
    non-empty sets of NFA states: the one recorded for DFA state [t] is the [t]-th of [sets],
    and state 0 is the set of NFA states reachable without input. *)
Theorem C05_from_nfa_terminates :
  forall n, built n -> exists d sets, from_nfa n = Ok d /\
    NoDup sets /\ length (d_first d) = length sets /\
    (forall q, In q sets -> q <> [] /\ ssorted q /\ forall s, In s q -> s < length (states n)) /\
    (exists c0, nth_error sets 0 = Some c0 /\ forall t, In t c0 <-> path (edges n) START_IDX [] t) /\
    (forall t, map_get t (dfa_to_nfa d) = match t with O => None | S _ => nth_error sets t end) /\
    (forall e, In e (d_edges d) -> de_from e < length sets /\ de_to e < length sets).
Proof.
  intros n Hb. destruct (built_ok n Hb) as (Hw & Hs & _).
  destruct (from_nfa_ok n Hw Hs) as (al & d & ds & _ & E & Hok). exists d, ds. split; auto.
  pose proof Hok as ((c0 & (H1 & H2 & H3) & H4 & H5) & Hm & _ & (Hl & He) & Hrow).
  split; auto. split; auto. split; [intros q Hq; destruct (H2 q Hq) as (A & B & C); auto|].
  split; [|split].
  - exists c0. split; auto.
  - intros t. apply map_ok_get; auto.
  - intros e Hin. split; auto. destruct (dfa_ok_edge _ _ _ _ _ Hok Hin) as (q & es & _ & Hr & Hin').
    destruct (row_In _ _ _ _ _ _ _ Hr Hin') as (u & _ & _ & _ & Hu). apply nth_error_lt in Hu. auto.
Qed.
Print Assumptions C05_from_nfa_terminates.

(** A lexer can be built exactly when every regex can be compiled (see C02 for when). *)
Theorem C05_lexer_built_iff :
  forall tokens, (exists L, from_tokens tokens = Ok L) <->
    (forall td h, In (td, h) tokens -> exists n, from_regex h = Ok n).
Proof. exact from_tokens_total. Qed.
Print Assumptions C05_lexer_built_iff.

Definition ex_tokens : list (token_def * hir) :=
  [ex_tok [105; 102] (ex_lit [105; 102]);
   ex_tok [119] (HRep OneOrMore (HClass [(97, 122)]));
   ex_tok [110] (HRep OneOrMore (HClass [(48, 57)]))]%N.

Example C05_nonvacuous : exists n tmap, lex_nfa ex_tokens = Ok (n, tmap) /\ built n /\
  exists d, from_nfa n = Ok d /\ 4 <= length (d_first d).
Proof.
  destruct (lex_nfa ex_tokens) as [[n tmap]| |] eqn:E; [|vm_compute in E; discriminate E..].
  exists n, tmap. split; auto. split; [eapply built_lexer; eauto|].
  vm_compute in E. injection E as <- <-. eexists. split; [vm_compute; reflexivity|]. simpl. lia.
Qed.

(** ** C06 *)

(** The full statement is false: [a-d]x|[a-i]y|bz|[b-f]w on "bz" (two edges of the start state
    match 'b', the first one loses the third alternative). *)
Definition ex_overlap : list hir :=
  [HConcat [HClass [(97, 100)]; HLit 120]; HConcat [HClass [(97, 105)]; HLit 121];
   HConcat [HLit 98; HLit 122]; HConcat [HClass [(98, 102)]; HLit 119]]%N.

Theorem C06_dfa_tracks_nfa_refuted :
  exists n d w x, built n /\ from_nfa n = Ok d /\ path (edges n) START_IDX w x /\
    (forall t, ~ follows d 0 w t) /\
    exists e1 e2 c, In e1 (d_edges d) /\ In e2 (d_edges d) /\ de_from e1 = de_from e2 /\
      matches (de_label e1) c = true /\ matches (de_label e2) c = true /\ de_to e1 <> de_to e2.
Proof.
  destruct (from_regex (HAlt ex_overlap)) as [n| |] eqn:En; [|vm_compute in En; discriminate En..].
  pose proof (built_regex _ _ En) as Hb. destruct (built_ok n Hb) as (Hw & Hs & _).
  destruct (from_nfa n) as [d| |] eqn:Ed; [|vm_compute in En; injection En as <-; vm_compute in Ed; discriminate Ed..].
  destruct (from_nfa_inv n d Hw Hs Ed) as (al & ds & _ & Hok).
  exists n, d, [98; 122]%N, FINAL_ACCEPT_IDX. split; auto. split; auto. split; [|split].
  - apply (rn_lang _ _ (from_regex_inv _ _ En)). eapply L_alt; [right; right; left; reflexivity|].
    apply (L_concat_cons _ _ [98]%N [122]%N); [constructor|].
    apply (L_concat_cons _ _ [122]%N []); constructor.
  - intros t Ht. apply (follows_d_run n al d ds _ _ Hok) in Ht.
    vm_compute in En. injection En as <-. vm_compute in Ed. injection Ed as <-. vm_compute in Ht. discriminate Ht.
  - vm_compute in En. injection En as <-. vm_compute in Ed. injection Ed as <-.
    exists (DEdge 0 (98, 101)%N 2), (DEdge 0 (98, 99)%N 3), 98%N.
    vm_compute; repeat split; auto; try lia; tauto.
Qed.
Print Assumptions C06_dfa_tracks_nfa_refuted.

(** It holds when the pieces into which the code cuts the character ranges of the NFA refine them,
    for instance when the ranges are pairwise nested or disjoint (C04). *)
Theorem C06_dfa_tracks_nfa_partial :
  forall n d, built n -> from_nfa n = Ok d ->
  (forall al, remove_overlap (set_of_list (edge_labels (edges n))) = Ok al ->
     forall r p c d, In r al -> In p (edge_labels (edges n)) -> covers r c -> covers r d -> covers p c -> covers p d) ->
  (forall w, (exists t, follows d 0 w t) <-> (exists x, path (edges n) START_IDX w x)) /\
  (forall w t, w <> [] -> follows d 0 w t -> exists q, map_get t (dfa_to_nfa d) = Some q /\
      forall x, In x q <-> path (edges n) START_IDX w x) /\
  (forall e1 e2 c, In e1 (d_edges d) -> In e2 (d_edges d) -> de_from e1 = de_from e2 ->
      matches (de_label e1) c = true -> matches (de_label e2) c = true -> e1 = e2).
Proof.
  intros n d Hb E Hl. destruct (built_ok n Hb) as (Hw & Hs & Hno).
  apply from_nfa_tracks; auto. apply built_split; auto.
Qed.
Print Assumptions C06_dfa_tracks_nfa_partial.

(** Without that condition: what the DFA reaches, the NFA reaches. *)
Theorem C06_dfa_sound :
  forall n d, built n -> from_nfa n = Ok d ->
  forall w t, w <> [] -> follows d 0 w t -> exists q, map_get t (dfa_to_nfa d) = Some q /\ q <> [] /\
    forall x, In x q -> path (edges n) START_IDX w x.
Proof.
  intros n d Hb E w t Hne Hf. destruct (built_ok n Hb) as (Hw & Hs & Hno).
  destruct (from_nfa_inv n d Hw Hs E) as (al & ds & _ & Hok).
  apply (follows_d_run n al d ds w t Hok) in Hf as Hr.
  destruct (d_run_sound n al d ds Hok w) as (o & Eo & Ho). rewrite Hr in Eo. injection Eo as <-.
  destruct Ho as (q & Hq & Hqne & Hx). exists q. split; auto.
  pose proof Hok as (_ & Hmap & _). rewrite (map_ok_get ds _ t Hmap). destruct t as [|t]; auto. exfalso.
  destruct (exists_last Hne) as (w' & c & ->). rewrite d_run_app in Hr.
  destruct (d_run_sound n al d ds Hok w') as (o & Eo & Ho). rewrite Eo in Hr. simpl in Hr.
  destruct o as [t|]; [|discriminate]. destruct Ho as (q' & Hq' & _).
  destruct (d_next d t c) as [[t'|]|p|] eqn:En; simpl in Hr; try discriminate.
  injection Hr as ->. eapply (d_next_nonzero n al d ds t q' c 0); eauto.
Qed.
Print Assumptions C06_dfa_sound.

(** The pieces for the example lexer refine its ranges, and its DFA reads "if". *)
Example C06_nonvacuous : exists n tmap d t, lex_nfa ex_tokens = Ok (n, tmap) /\ from_nfa n = Ok d /\
  (forall al, remove_overlap (set_of_list (edge_labels (edges n))) = Ok al ->
     forall r p c d, In r al -> In p (edge_labels (edges n)) -> covers r c -> covers r d -> covers p c -> covers p d) /\
  d_run d 0 [105; 102]%N = Ok (Some t).
Proof.
  eexists _, _, _, _. split; [vm_compute; reflexivity|]. split; [vm_compute; reflexivity|].
  split; [|vm_compute; reflexivity].
  intros al E. vm_compute in E. injection E as <-. apply refines_b_ok. vm_compute. reflexivity.
Qed.

(** ** C07 *)

(** Not the language: "a" is accepted for the regex ab, and the empty string is rejected for
    a*. *)
Theorem C07_test_language_refuted :
  (exists h n d w, from_regex h = Ok n /\ from_nfa n = Ok d /\ ~ Lang h w /\ d_test d w = Ok true) /\
  (exists h n d w, from_regex h = Ok n /\ from_nfa n = Ok d /\ Lang h w /\ d_test d w = Ok false).
Proof.
  split.
  - destruct (from_regex (ex_lit [97; 98]%N)) as [n| |] eqn:En; [|vm_compute in En; discriminate En..].
    pose proof (C01 := nfa_simulate_correct _ n (fun _ l => l) [97]%N En (fun _ l => Permutation_refl l)).
    destruct (from_nfa n) as [d| |] eqn:Ed; [|vm_compute in En; injection En as <-; vm_compute in Ed; discriminate Ed..].
    exists (ex_lit [97; 98]%N), n, d, [97]%N. split; auto. split; auto.
    vm_compute in En. injection En as <-. vm_compute in Ed. injection Ed as <-.
    destruct C01 as (b & Eb & Hb). vm_compute in Eb. injection Eb as <-.
    split; [|vm_compute; reflexivity]. intros HL. apply Hb in HL. discriminate.
  - eexists (HRep ZeroOrMore (HLit 97)), _, _, []. split; [vm_compute; reflexivity|].
    split; [vm_compute; reflexivity|]. split; [constructor|vm_compute; reflexivity].
Qed.
Print Assumptions C07_test_language_refuted.

(** What it does decide: a non-empty ASCII word along which the DFA has edges; so when the pieces
    refine the ranges, a non-empty ASCII beginning of a word of the language. *)
Theorem C07_test_characterised :
  forall h n d, from_regex h = Ok n -> from_nfa n = Ok d -> forall w, exists b, d_test d w = Ok b /\
    (b = true <-> w <> [] /\ ascii w /\ exists t, follows d 0 w t).
Proof.
  intros h n d En Ed w. destruct (built_ok n (built_regex _ _ En)) as (Hw & Hs & Hno).
  apply (d_test_follows n d w Hw Hs Hno Ed).
Qed.
Print Assumptions C07_test_characterised.

Theorem C07_test_viable_partial :
  forall h n d, from_regex h = Ok n -> from_nfa n = Ok d -> split_refines [h] -> productive h ->
  forall w, exists b, d_test d w = Ok b /\
    (b = true <-> w <> [] /\ ascii w /\ exists v, Lang h (w ++ v)).
Proof.
  intros h n d En Ed Hn Hp w. destruct (C07_test_characterised h n d En Ed w) as (b & Eb & Hb).
  exists b. split; auto. rewrite Hb.
  destruct (C06_dfa_tracks_nfa_partial n d (built_regex _ _ En) Ed) as (H1 & _).
  - assert (Hlab : forall x, In x (flat_map written [h]) <-> In x (edge_labels (edges n))).
    { intros x. rewrite (from_regex_labels h n x En), <- written_label. simpl. rewrite app_nil_r. reflexivity. }
    intros al Ea r p c e Hr Hm. apply (Hn al); [|exact Hr|apply Hlab; exact Hm]. rewrite <- Ea. f_equal.
    apply ssorted_ext; try apply set_of_list_sorted. intros x. rewrite !set_of_list_In. apply Hlab.
  - rewrite H1, (from_regex_live h n w En Hp). reflexivity.
Qed.
Print Assumptions C07_test_viable_partial.

Local Ltac compute_ok := vm_compute; reflexivity.
Example C07_nonvacuous : split_refines [ex_lit [97; 98]%N] /\ productive (ex_lit [97; 98]%N) /\
  exists n d, from_regex (ex_lit [97; 98]%N) = Ok n /\ from_nfa n = Ok d /\ d_test d [97]%N = Ok true.
Proof.
  assert (S : forall x, subterm x (ex_lit [97; 98]%N) ->
    x = ex_lit [97; 98]%N \/ x = HLit 97 \/ x = HLit 98).
  { intros x Hx. apply ex_lit_sub in Hx as [->|(c & [<-|[<-|[]]] & ->)]; auto. }
  split; [|split].
  - apply split_b_ok. compute_ok.
  - intros x Hx. apply S in Hx as [->|[-> | ->]]; simpl; auto.
  - eexists _, _. split; [vm_compute; reflexivity|]. split; vm_compute; reflexivity.
Qed.

(** ** C08 *)
Theorem C08_simulate_longest_run :
  forall n d, built n -> from_nfa n = Ok d -> forall w, exists r, d_simulate d w = Ok r /\
    (forall k, r = Some k <-> 0 < k /\
       (exists w1 w2 t, w = w1 ++ w2 /\ length w1 = k /\ follows d 0 w1 t) /\
       (forall w1 w2 t, w = w1 ++ w2 -> follows d 0 w1 t -> length w1 <= k)) /\
    (r = None <-> forall w1 w2 t, w = w1 ++ w2 -> follows d 0 w1 t -> w1 = []).
Proof.
  intros n d Hb Ed w. destruct (built_ok n Hb) as (Hw & Hs & Hno).
  destruct (d_simulate_follows n d w Hw Hs Hno Ed) as (w1 & w2 & t & -> & Hf & Hst & E).
  assert (Hmax : forall v1 v2 u, w1 ++ w2 = v1 ++ v2 -> follows d 0 v1 u -> length v1 <= length w1).
  { intros v1 v2 u Ev Hv. destruct (le_lt_dec (length v1) (length w1)) as [|Hgt]; auto. exfalso.
    assert (exists c x, v1 = w1 ++ c :: x /\ exists y, w2 = c :: y) as (c & x & -> & y & ->).
    { destruct (prefix_cases _ _ _ _ Ev) as [(x & -> & ->)|(x & -> & ->)].
      - destruct x as [|c x]; [rewrite app_nil_r in Hgt; lia|]. exists c, x. simpl. eauto.
      - rewrite app_length in Hgt. lia. }
    apply follows_app in Hv as (s & H1 & H2). rewrite (follows_det _ _ _ _ _ H1 Hf) in H2.
    inversion H2 as [|s' c' w' u' l1 e l2 El Hfr Hm Hmin H']; subst.
    rewrite (Hst e) in Hm; auto; [discriminate|]. rewrite El. apply in_or_app; simpl; auto. }
  rewrite E. eexists. split; [reflexivity|]. split.
  - intros k. split.
    + destruct w1 as [|c w1]; [discriminate|]. intros H; injection H as <-. split; [simpl; lia|].
      split; [|exact Hmax]. exists (c :: w1), w2, t. auto.
    + intros (Hk & (v1 & v2 & u & Ev & El & Hu) & Hk2). pose proof (Hmax v1 v2 u Ev Hu) as H1.
      pose proof (Hk2 w1 w2 t eq_refl Hf) as H2. destruct w1; [simpl in *; lia|]. f_equal. lia.
  - split.
    + destruct w1; [|discriminate]. intros _ v1 v2 u Ev Hu. pose proof (Hmax v1 v2 u Ev Hu).
      destruct v1; auto. simpl in H. lia.
    + intros H. rewrite (H w1 w2 t eq_refl Hf). auto.
Qed.
Print Assumptions C08_simulate_longest_run.

Example C08_nonvacuous : exists n tmap d, lex_nfa ex_tokens = Ok (n, tmap) /\ from_nfa n = Ok d /\
  d_simulate d [105; 102; 97; 55]%N = Ok (Some 3) /\ d_simulate d [33]%N = Ok None.
Proof.
  eexists _, _, _. split; [vm_compute; reflexivity|]. split; [vm_compute; reflexivity|].
  split; vm_compute; reflexivity.
Qed.

(** ** The lexer *)

(** C09/C10 are false in general, for the same reason as C06.  With the token definitions
    [a-d]x, [a-i]y, bz, [b-f]w nothing is returned for "bz". *)
Definition ex_bad_tokens : list (token_def * hir) := map (fun h => ex_tok [120]%N h) ex_overlap.

Theorem C09_longest_match_refuted :
  exists tokens L input i h, from_tokens tokens = Ok L /\ nth_error (map snd tokens) i = Some h /\
    Lang h input /\ lex L input = Ok [].
Proof.
  eexists ex_bad_tokens, _, [98; 122]%N, 2, _. split; [vm_compute; reflexivity|].
  split; [reflexivity|]. split; [|vm_compute; reflexivity].
  apply (L_concat_cons _ _ [98]%N [122]%N); [constructor|].
  apply (L_concat_cons _ _ [122]%N []); constructor.
Qed.
Print Assumptions C09_longest_match_refuted.

(** C10: bz, [a-d]x, [a-i]y, [b-f]z on "bz": the first and the last both match all of it; the
    last is returned. *)
Definition ex_tie_tokens : list (token_def * hir) :=
  [ex_tok [49] (HConcat [HLit 98; HLit 122]);
   ex_tok [50] (HConcat [HClass [(97, 100)]; HLit 120]);
   ex_tok [51] (HConcat [HClass [(97, 105)]; HLit 121]);
   ex_tok [52] (HConcat [HClass [(98, 102)]; HLit 122])]%N.

Theorem C10_first_definition_refuted :
  exists tokens L input, from_tokens tokens = Ok L /\ first_match (map snd tokens) input 0 /\
    first_match (tl (map snd tokens)) input 2 /\
    lex L input = Ok [Token [52]%N (Some input)] /\
    map (fun t => td_name (fst t)) tokens = [[49]; [50]; [51]; [52]]%N.
Proof.
  assert (E : exists L, from_tokens ex_tie_tokens = Ok L /\
                lex L [98; 122]%N = Ok [Token [52]%N (Some [98; 122]%N)]).
  { eexists. split; [compute_ok|]. compute_ok. }
  destruct E as (L & E1 & E2). exists ex_tie_tokens, L, [98; 122]%N. split; auto.
  split; [|split; [|split; [auto|reflexivity]]].
  - split; [|intros j h Hj; lia]. eexists. split; [reflexivity|].
    apply (L_concat_cons _ _ [98]%N [122]%N); [constructor|].
    apply (L_concat_cons _ _ [122]%N []); constructor.
  - split.
    + eexists. split; [reflexivity|]. simpl.
      apply (L_concat_cons _ _ [98]%N [122]%N); [eapply L_class; [left; reflexivity|lia]|].
      apply (L_concat_cons _ _ [122]%N []); constructor.
    + intros [|[|j]] h Hj Hh HL; [| |lia]; injection Hh as <-.
      * inversion HL as [| | | | | | | | | | |h' hs' w1 w2 H1 H2 Ea Eb|]; subst.
        inversion H2 as [| | | | | | | | | | |h' hs' w3 w4 H3 H4 Ec Ed|]; subst.
        inversion H3; subst. inversion H4; subst. inversion H1; subst. simpl in Eb. congruence.
      * inversion HL as [| | | | | | | | | | |h' hs' w1 w2 H1 H2 Ea Eb|]; subst.
        inversion H2 as [| | | | | | | | | | |h' hs' w3 w4 H3 H4 Ec Ed|]; subst.
        inversion H3; subst. inversion H4; subst. inversion H1; subst. simpl in Eb. congruence.
Qed.
Print Assumptions C10_first_definition_refuted.

(** The tokens [ts] (position, definition, text) behind the answer of [lex]. *)
Definition answer (tokens : list (token_def * hir)) (L : lexer) (input : list N)
  (ts : list (nat * nat * list N)) : Prop :=
  lex L input = mapM (token_of tokens input) ts /\
  (ascii input -> lex L input = Ok (map (plain_token tokens) ts)).

(** C09 and C10, when the pieces refine the ranges of the definitions: every token is the
    longest non-empty match where it starts, of the first definition that matches that text. *)
Theorem C09_longest_match_partial :
  forall tokens L, from_tokens tokens = Ok L -> split_refines (map snd tokens) ->
  forall input, exists ts, answer tokens L input ts /\
    forall pos i u, In (pos, i, u) ts -> exists before after,
      input = before ++ u ++ after /\ pos = length before /\ u <> [] /\
      (exists h, nth_error (map snd tokens) i = Some h /\ Lang h u) /\
      (forall u' v' h, u ++ after = u' ++ v' -> In h (map snd tokens) -> Lang h u' -> length u' <= length u).
Proof.
  intros tokens L HL Hn input.
  destruct (lex_exact tokens L input HL Hn) as (lv & ts & r & HT & El & Ea & _ & Hdec & _).
  exists ts. split; [split; auto|]. intros pos i u Hin.
  destruct (tokenize_longest _ _ _ _ _ _ HT _ _ _ Hin) as (a & b & E & Ep & (H1 & H2 & H3)).
  exists a, b. split; auto. split; auto. split; auto. split; [apply H2|].
  intros u' v' h Eu Hh HLh. destruct u' as [|c u']; [simpl; lia|].
  destruct (Hdec (c :: u')) as [[j Hj]|Hno]; [discriminate|eapply H3; eauto|]. exfalso.
  (* some definition matches, so a first one does *)
  apply In_nth_error in Hh as [k Hk]. revert h Hk HLh. induction k as [k IH] using lt_wf_ind. intros h Hk HLh.
  apply (Hno k). split; [eauto|]. intros j h' Hj Hh' Hl'. eapply IH; eauto.
Qed.
Print Assumptions C09_longest_match_partial.

Theorem C10_first_definition_partial :
  forall tokens L, from_tokens tokens = Ok L -> split_refines (map snd tokens) ->
  forall input, exists ts, answer tokens L input ts /\
    forall pos i u, In (pos, i, u) ts ->
      forall j h, nth_error (map snd tokens) j = Some h -> Lang h u -> i <= j.
Proof.
  intros tokens L HL Hn input.
  destruct (lex_exact tokens L input HL Hn) as (lv & ts & r & HT & El & Ea & _).
  exists ts. split; [split; auto|]. intros pos i u Hin j h Hj HLh.
  destruct (tokenize_longest _ _ _ _ _ _ HT _ _ _ Hin) as (a & b & E & Ep & (H1 & (_ & H2) & H3)).
  destruct (le_lt_dec i j); auto. exfalso. eapply H2; eauto.
Qed.
Print Assumptions C10_first_definition_partial.

(** The example definitions satisfy the hypothesis: "if" and identifiers overlap. *)
Lemma ex_tokens_labels : forall h m, In h (map snd ex_tokens) -> hir_label h m ->
  m = (105, 106)%N \/ m = (102, 103)%N \/ m = (97, 123)%N \/ m = (48, 58)%N.
Proof.
  intros h m Hh (x & Hx & Hm). simpl in Hh. destruct Hh as [<-|[<-|[<-|[]]]].
    - apply ex_lit_sub in Hx as [->|(c & [<-|[<-|[]]] & ->)]; simpl in Hm; auto. destruct Hm.
    - apply sub_rep_inv in Hx as [-> | Hx]; [destruct Hm|]. apply sub_class_inv in Hx as ->.
      destruct Hm as (lo & hi & [E|[]] & ->). injection E as <- <-. auto.
    - apply sub_rep_inv in Hx as [-> | Hx]; [destruct Hm|]. apply sub_class_inv in Hx as ->.
      destruct Hm as (lo & hi & [E|[]] & ->). injection E as <- <-. auto.
Qed.

Lemma ex_tokens_nested : well_nested (map snd ex_tokens).
Proof.
  intros h h' a b Hh Hh' Ha Hb. apply ex_tokens_labels in Ha; auto. apply ex_tokens_labels in Hb; auto. unfold covers.
  destruct Ha as [->|[->|[->| ->]]], Hb as [->|[->|[->| ->]]]; simpl;
  first [left; intros c; lia | right; left; intros c; lia | right; right; intros c; lia].
Qed.

Lemma ex_tokens_productive : forall h, In h (map snd ex_tokens) -> productive h.
Proof.
  intros h Hh x Hx. simpl in Hh. destruct Hh as [<-|[<-|[<-|[]]]].
  - apply ex_lit_sub in Hx as [->|(c & _ & ->)]; simpl; auto.
  - apply sub_rep_inv in Hx as [-> | Hx]; simpl; auto. apply sub_class_inv in Hx as ->.
    split; [discriminate|]. intros lo hi [E|[]]. injection E as <- <-. lia.
  - apply sub_rep_inv in Hx as [-> | Hx]; simpl; auto. apply sub_class_inv in Hx as ->.
    split; [discriminate|]. intros lo hi [E|[]]. injection E as <- <-. lia.
Qed.

(** The hypothesis in terms of the ranges written in the definitions: it holds when any two that overlap
    without one being inside the other are alone (C04), so in particular when they are nested or disjoint. *)
Theorem C09_split_refines_if :
  forall hs,
  (forall a b c, In a (flat_map written hs) -> In b (flat_map written hs) -> In c (flat_map written hs) ->
     (fst a < fst b)%N -> (fst b < snd a)%N -> (snd a < snd b)%N -> covers c (fst b) ->
     c = a \/ c = b \/ c = (fst b, fst b + 1)%N) ->
  split_refines hs.
Proof.
  intros hs H. apply tame_split. intros a c b Ha Hc Hb H1 H2 H3 H4.
  destruct (H a b c Ha Hb Hc H1 H2 H3 H4) as [E|[E|E]]; auto. right; right. rewrite E. simpl. lia.
Qed.
Print Assumptions C09_split_refines_if.

(** Strings in single and in double quotes: their ranges are neither nested nor disjoint, but the
    pieces refine them. *)
Definition ex_quoted (q : N) : hir := HConcat [HLit q; HRep ZeroOrMore (HClass [(0, q - 1); (q + 1, 1114111)]%N); HLit q].
Definition ex_strings : list (token_def * hir) :=
  [(TokenDef [115]%N true None, ex_quoted 39); (TokenDef [100]%N true None, ex_quoted 34)].
Example C09_strings_nonvacuous : ~ well_nested (map snd ex_strings) /\ split_refines (map snd ex_strings) /\
  exists L, from_tokens ex_strings = Ok L /\
  lex L [34; 39; 34; 32; 39; 34; 39; 10]%N = Ok [Token [100]%N (Some [34; 39; 34]%N); Token [115]%N (Some [39; 34; 39]%N)].
Proof.
  split; [|split].
  - intros H. specialize (H (ex_quoted 39) (ex_quoted 34) (0, 39)%N (35, 1114112)%N (or_introl eq_refl) (or_intror (or_introl eq_refl))).
    destruct H as [H|[H|H]].
    + apply written_label. vm_compute. tauto.
    + apply written_label. vm_compute. tauto.
    + apply (H 36%N). unfold covers; simpl; lia.
    + specialize (H 0%N). unfold covers in H; simpl in H. lia.
    + specialize (H 39%N). unfold covers in H; simpl in H. lia.
  - apply split_b_ok. compute_ok.
  - eexists. split; [compute_ok|]. compute_ok.
Qed.

(** A piece that occurs twice does no harm. *)
Definition ex_twice : list (token_def * hir) :=
  [(TokenDef [112]%N true None, HConcat [HClass [(97, 98)]%N; HClass [(97, 99)]%N]);
   (TokenDef [113]%N true None, HConcat [HClass [(98, 98)]%N; HClass [(98, 99)]%N; HLit 33])].
Example C09_twice_nonvacuous : split_refines (map snd ex_twice) /\
  remove_overlap (set_of_list (flat_map written (map snd ex_twice))) =
    Ok [(33, 34); (97, 98); (98, 99); (98, 99); (99, 100)]%N /\
  exists L, from_tokens ex_twice = Ok L /\
  lex L [98; 99; 33; 97; 98; 10]%N = Ok [Token [113]%N (Some [98; 99; 33]%N); Token [112]%N (Some [97; 98]%N)].
Proof.
  split; [apply split_b_ok; compute_ok|]. split; [compute_ok|]. eexists. split; [compute_ok|]. compute_ok.
Qed.

Example C09_nonvacuous : exists L, from_tokens ex_tokens = Ok L /\
  lex L [105; 102; 32; 105; 102; 120; 55; 10]%N =
    Ok [Token [105; 102]%N (Some [105; 102]%N); Token [119]%N (Some [105; 102; 120]%N);
        Token [110]%N (Some [55]%N)].
Proof. eexists. split; [compute_ok|]. compute_ok. Qed.

(** C11: for every list of definitions and every input, [lex] comes to an end; the only way it
    can fail is the slice of the matched text (see C14), and every token has a non-empty text
    in the language of its definition. *)
Theorem C11_lex_terminates :
  forall tokens L, from_tokens tokens = Ok L -> forall input,
  (exists out, lex L input = Ok out) \/ (lex L input = Panic PSlice /\ ~ ascii input).
Proof.
  intros tokens L HL input. destruct (lex_any tokens L input HL) as (ts & r & _ & Hin & El & Ea).
  assert (D : ascii input \/ ~ ascii input).
  { unfold ascii. clear. induction input as [|c s [IH|IH]]; [left; constructor| |right; inversion 1; auto].
    destruct (N.ltb_spec c 128); [left; constructor; auto|right; inversion 1; subst; lia]. }
  destruct D as [D|D]; [left; rewrite (Ea D); eauto|]. rewrite El. clear El Ea.
  enough (H : (exists out, mapM (token_of tokens input) ts = Ok out) \/ mapM (token_of tokens input) ts = Panic PSlice)
    by (destruct H; auto).
  induction ts as [|[[p i] u] ts IH]; simpl; [left; eauto|].
  destruct (Hin p i u) as (_ & td & h & E & _); [left; auto|]. rewrite E.
  assert (Ht : (exists t, (if td_with_val td
                then let* v := byte_slice input p (p + length u) in Ok (Token (td_name td) (Some v))
                else Ok (Token (td_name td) None)) = Ok t) \/
               (if td_with_val td
                then let* v := byte_slice input p (p + length u) in Ok (Token (td_name td) (Some v))
                else Ok (Token (td_name td) None)) = Panic PSlice).
  { destruct (td_with_val td); [|left; eauto]. pose proof (byte_slice_panic input p (p + length u)) as Hb.
    destruct (byte_slice input p (p + length u)) as [v|[]|]; simpl; try contradiction; eauto. }
  destruct Ht as [[t ->]| ->]; simpl; auto.
  destruct IH as [[out ->]| ->]; simpl; eauto. intros; eapply Hin; right; eauto.
Qed.
Print Assumptions C11_lex_terminates.

Theorem C11_no_empty_token :
  forall tokens L, from_tokens tokens = Ok L -> forall input, exists ts, answer tokens L input ts /\
    forall pos i u, In (pos, i, u) ts ->
      u <> [] /\ exists td h, nth_error tokens i = Some (td, h) /\ Lang h u.
Proof.
  intros tokens L HL input. destruct (lex_any tokens L input HL) as (ts & r & _ & Hin & El & Ea).
  exists ts. split; [split; auto|]. auto.
Qed.
Print Assumptions C11_no_empty_token.

(** A definition that matches the empty string: no token is returned for "b". *)
Example C11_nonvacuous : exists L, from_tokens [ex_tok [120]%N (HRep ZeroOrMore (HLit 97))] = Ok L /\
  lex L [98]%N = Ok [] /\ lex L [97; 97; 32; 97]%N = Ok [Token [120]%N (Some [97; 97]%N); Token [120]%N (Some [97]%N)].
Proof. eexists. split; [compute_ok|]. split; compute_ok. Qed.

(** C12 *)
Theorem C12_lexemes_in_order :
  forall tokens L, from_tokens tokens = Ok L -> forall input, exists ts rest, answer tokens L input ts /\
    Layout 0 input (map drop_idx ts) rest.
Proof.
  intros tokens L HL input. destruct (lex_any tokens L input HL) as (ts & r & Hlay & _ & El & Ea).
  exists ts, r. split; [split; auto|]. auto.
Qed.
Print Assumptions C12_lexemes_in_order.

(** With no hypothesis, the slices are what the code takes, so a token's value can be checked. *)
Example C12_nonvacuous : exists L, from_tokens ex_tokens = Ok L /\
  lex L [105; 102; 32; 10; 55; 33; 55]%N = Ok [Token [105; 102]%N (Some [105; 102]%N); Token [110]%N (Some [55]%N)] /\
  Layout 0 [105; 102; 32; 10; 55; 33; 55]%N [(0, [105; 102]%N); (4, [55]%N)] [33; 55]%N.
Proof.
  eexists. split; [compute_ok|]. split; [compute_ok|].
  apply (LayTok 0 [105; 102]%N); [discriminate|]. simpl.
  apply LaySkip; [right; reflexivity|]. apply LaySkip; [left; reflexivity|].
  apply (LayTok 4 [55]%N); [discriminate|]. apply LayEnd.
Qed.

(** C13 is false: reading stops at the first character that cannot be tokenised, and at the
    end of the input everything after the last complete token is lost. *)
Definition ex_drop_tokens : list (token_def * hir) :=
  [ex_tok [97] (ex_lit [97]); ex_tok [98] (ex_lit [98]); ex_tok [99] (ex_lit [97; 98; 99])]%N.

Theorem C13_nothing_dropped_refuted :
  (exists tokens L, from_tokens tokens = Ok L /\
     lex L [97; 33; 97]%N = Ok [Token [97]%N (Some [97]%N)]) /\
  (exists tokens L, from_tokens tokens = Ok L /\
     lex L [97]%N = Ok [Token [97]%N (Some [97]%N)] /\ lex L [98]%N = Ok [Token [98]%N (Some [98]%N)] /\
     lex L [97; 98]%N = Ok [Token [97]%N (Some [97]%N)]).
Proof.
  split; exists ex_drop_tokens; eexists; (split; [compute_ok|]); repeat split; compute_ok.
Qed.
Print Assumptions C13_nothing_dropped_refuted.

(** Exactly when something is left unread, for pieces that refine the ranges: either nothing
    matches at the start of the rest and its first character is not skippable white space, or
    the rest follows the last token, and together they are the beginning of a token. *)
Theorem C13_what_is_dropped_partial :
  forall tokens L, from_tokens tokens = Ok L -> split_refines (map snd tokens) ->
  (forall h, In h (map snd tokens) -> productive h) ->
  forall input, exists ts rest, answer tokens L input ts /\ Layout 0 input (map drop_idx ts) rest /\
    (rest = [] \/
     (exists c v, rest = c :: v /\
        (forall u w h, rest = u ++ w -> u <> [] -> In h (map snd tokens) -> ~ Lang h u) /\
        ~ (white c /\ ~ viable (map snd tokens) [c])) \/
     (exists ts' p i u, ts = ts' ++ [(p, i, u)] /\ viable (map snd tokens) (u ++ rest))).
Proof.
  intros tokens L HL Hn Hp input.
  destruct (lex_exact tokens L input HL Hn) as (lv & ts & r & HT & El & Ea & _ & Hdec & Hlv).
  specialize (Hlv Hp). pose proof (tokenize_layout _ _ _ _ _ _ HT) as Hlay.
  exists ts, r. split; [split; auto|]. split; auto.
  destruct (tokenize_rest _ _ _ _ _ _ HT) as [H|[(c & v & -> & Hno & Hsk)|(ts' & p & i & u & -> & Hl)]]; auto.
  - right; left. exists c, v. split; auto. split.
    + intros u w h E Hu Hh HLh. destruct (Hdec u Hu) as [[j Hj]|Hj]; [eapply Hno; eauto|].
      apply In_nth_error in Hh as [k Hk]. revert h Hk HLh. induction k as [k IH] using lt_wf_ind. intros h Hk HLh.
      apply (Hj k). split; [eauto|]. intros j h' Hjk Hh' Hl'. eapply IH; eauto.
    + intros [Hwc Hv]. apply Hsk. split; auto. rewrite Hlv; [auto|discriminate].
  - right; right. exists ts', p, i, u. split; auto. apply Hlv; auto.
    assert (Hu : u <> []); [|destruct u; [congruence|discriminate]].
    destruct (tokenize_longest _ _ _ _ _ _ HT p i u) as (a & b & _ & _ & (Hu & _)); auto.
    apply in_or_app; right; left; auto.
Qed.
Print Assumptions C13_what_is_dropped_partial.

(** C14 is false for non-ASCII text: the character index is used as a byte offset.  "é" then
    "a" makes the slice panic; "éé" then "ab" returns "é" as the value of the last token. *)
Definition ex_utf_tokens : list (token_def * hir) :=
  [(TokenDef [101]%N false None, HLit 233); ex_tok [97]%N (HRep OneOrMore (HClass [(97, 98)]%N))].

Theorem C14_value_refuted :
  exists tokens L, from_tokens tokens = Ok L /\
    lex L [233; 97]%N = Panic PSlice /\
    lex L [233; 233; 97; 98]%N = Ok [Token [101]%N None; Token [101]%N None; Token [97]%N (Some [233]%N)].
Proof. exists ex_utf_tokens; eexists. split; [compute_ok|]. split; compute_ok. Qed.
Print Assumptions C14_value_refuted.

(** For any text: the value of a token is the text whose UTF-8 bytes stand where the characters of
    the token would be if every character before its end were one byte long, and lexing panics
    exactly when these bytes are not whole characters for some token with a value.  So the values
    are right up to the first character that is not ASCII. *)
Theorem C14_value_exact :
  forall tokens L, from_tokens tokens = Ok L -> forall input,
  exists ts rest, Layout 0 input (map drop_idx ts) rest /\
    (forall p i u, In (p, i, u) ts -> exists td h, nth_error tokens i = Some (td, h) /\ Lang h u) /\
    ((lex L input = Panic PSlice /\ exists p i u td h, In (p, i, u) ts /\ nth_error tokens i = Some (td, h) /\ td_with_val td = true /\
        ~ (boundary input p /\ boundary input (p + length u))) \/
     (exists out, lex L input = Ok out /\ Forall2 (fun x t => let '(p, i, u) := x in
        exists td h, nth_error tokens i = Some (td, h) /\ tk_name t = td_name td /\
        if td_with_val td then boundary input p /\ boundary input (p + length u) /\
          exists v, tk_val t = Some v /\ cut input p (p + length u) v /\ (forall v', cut input p (p + length u) v' -> v' = v) /\
            (ascii (firstn (p + length u) input) -> v = u)
        else tk_val t = None) ts out)).
Proof.
  intros tokens L HL input. destruct (lex_any tokens L input HL) as (ts & r & Hlay & Hin & El & _). exists ts, r. split; auto.
  assert (Hin' : forall p i u, In (p, i, u) ts -> exists td h, nth_error tokens i = Some (td, h) /\ Lang h u) by (intros p i u Hx; apply (Hin p i u Hx)).
  split; auto. rewrite El. destruct (slice_tokens tokens input ts) as [(out & E & HF)|H]; [|right|left; exact H].
  - intros p i u Hx. destruct (Hin' p i u Hx) as (td & h & H & _). eauto.
  - exists out. split; auto. clear E El Hin Hin'.
    assert (Hpos : forall p i u, In (p, i, u) ts -> exists a b, input = a ++ u ++ b /\ p = length a).
    { intros p i u Hx. destruct (layout_pos _ _ _ _ Hlay p u) as (a & b & -> & -> & _); [apply (in_map drop_idx) in Hx; exact Hx|]. exists a, b. auto. }
    clear Hlay. induction HF as [|[[p i] u] t ts out (td & h & E & En & Hv) _ IH]; constructor; [|apply IH; intros; eapply Hpos; right; eauto].
    exists td, h. split; auto. split; auto. destruct (td_with_val td); auto. destruct Hv as (H1 & H2 & v & Ev & Hc).
    split; auto. split; auto. exists v. split; auto. split; auto. split; [intros v' Hv'; eapply cut_inj; eauto|].
    intros Ha. destruct (Hpos p i u (or_introl eq_refl)) as (a & b & -> & ->). apply (cut_inj _ _ _ _ _ Hc).
    apply cut_ascii. rewrite app_assoc, <- app_length, firstn_app, firstn_all2, Nat.sub_diag, app_nil_r in Ha by lia. exact Ha.
Qed.
Print Assumptions C14_value_exact.

(** For ASCII input the value is the matched text. *)
Theorem C14_value_ascii_partial :
  forall tokens L, from_tokens tokens = Ok L -> forall input, ascii input ->
  exists ts rest, Layout 0 input (map drop_idx ts) rest /\
    exists out, lex L input = Ok out /\ Forall2 (fun x t =>
      exists td h, nth_error tokens (snd (fst x)) = Some (td, h) /\ Lang h (snd x) /\
        tk_name t = td_name td /\ tk_val t = if td_with_val td then Some (snd x) else None) ts out.
Proof.
  intros tokens L HL input Ha. destruct (lex_any tokens L input HL) as (ts & r & Hlay & Hin & _ & Ea).
  exists ts, r. split; auto. eexists. split; [apply Ea; auto|]. clear Hlay Ea.
  induction ts as [|[[p i] u] ts IH]; simpl; constructor.
  - destruct (Hin p i u) as (_ & td & h & E & Hl); [left; auto|]. exists td, h. simpl. rewrite E. auto.
  - apply IH. intros; eapply Hin; right; eauto.
Qed.
Print Assumptions C14_value_ascii_partial.

(** For any input: tokens without a value are never affected. *)
Theorem C14_no_value_no_panic :
  forall tokens L, from_tokens tokens = Ok L -> (forall td h, In (td, h) tokens -> td_with_val td = false) ->
  forall input, exists out, lex L input = Ok out /\ forall t, In t out -> tk_val t = None.
Proof.
  intros tokens L HL Hv input. destruct (lex_any tokens L input HL) as (ts & r & _ & Hin & El & _).
  rewrite El. exists (map (plain_token tokens) ts). split.
  - apply mapM_map. intros [[p i] u] Hx. destruct (Hin p i u Hx) as (_ & td & h & E & _).
    simpl. rewrite E. apply nth_error_In in E. rewrite (Hv _ _ E). auto.
  - intros t Ht. apply in_map_iff in Ht as ([[p i] u] & <- & Hx). destruct (Hin p i u Hx) as (_ & td & h & E & _).
    simpl. rewrite E. apply nth_error_In in E. rewrite (Hv _ _ E). auto.
Qed.
Print Assumptions C14_no_value_no_panic.

(** In the text of the refutation, after a two-byte character. *)
Example C14_exact_nonvacuous : let s := [233; 233; 97; 98]%N in
  boundary s 2 /\ boundary s 4 /\ cut s 2 4 [233]%N /\ ~ boundary s 1.
Proof.
  repeat split.
  - right. exists 195%N. split; [reflexivity|lia].
  - right. exists 97%N. split; [reflexivity|lia].
  - intros [E|(b & E & Hb)]; [discriminate|]. injection E as <-. apply Hb. lia.
Qed.

Example C14_nonvacuous : ascii [105; 102; 32; 10; 55; 33; 55]%N /\
  exists L, from_tokens ex_tokens = Ok L.
Proof. split; [repeat constructor|]. eexists; vm_compute; reflexivity. Qed.

(** C15: false at the end of the input (a, b, abc on "ab": the reference returns a, b). *)
Theorem C15_maximal_munch_refuted :
  exists tokens L input ts, from_tokens tokens = Ok L /\ well_nested (map snd tokens) /\
    (forall h, In h (map snd tokens) -> productive h) /\
    Munch (viable (map snd tokens)) (first_match (map snd tokens)) 0 input ts [] /\
    length ts = 2 /\ exists out, lex L input = Ok out /\ length out = 1.
Proof.
  assert (S : forall h x, In h (map snd ex_drop_tokens) -> subterm x h ->
     x = h \/ x = HLit 97 \/ x = HLit 98 \/ x = HLit 99).
  { intros h x Hh Hx. simpl in Hh. destruct Hh as [<-|[<-|[<-|[]]]];
      apply ex_lit_sub in Hx as [->|(c & Hc & ->)]; auto; simpl in Hc;
      repeat (destruct Hc as [<-|Hc]; auto); destruct Hc. }
  assert (Sl : forall h m, In h (map snd ex_drop_tokens) -> hir_label h m ->
     m = (97, 98)%N \/ m = (98, 99)%N \/ m = (99, 100)%N).
  { intros h m Hh (x & Hx & Hm). destruct (S h x Hh Hx) as [->|[->|[->| ->]]]; auto.
    simpl in Hh. destruct Hh as [<-|[<-|[<-|[]]]]; destruct Hm. }
  assert (Lg : forall w u, Lang (ex_lit w) u -> u = w).
  { induction w as [|c w IH]; intros u Hu;
      inversion Hu as [| | | | | | | | | | |h' hs' w1 w2 H1 H2 Ea Eb|]; subst; auto.
    inversion H1; subst. simpl. f_equal. apply IH; auto. }
  assert (Ll : forall w, Lang (ex_lit w) w).
  { induction w as [|c w IH]; [constructor|]. apply (L_concat_cons _ _ [c] w); [constructor|exact IH]. }
  assert (Fm : forall u i, first_match (map snd ex_drop_tokens) u i -> u = [97]%N \/ u = [98]%N \/ u = [97; 98; 99]%N).
  { intros u i ((h & Hh & HL) & _). destruct i as [|[|[|i]]]; simpl in Hh; try (destruct i; discriminate);
      injection Hh as <-; apply Lg in HL; auto. }
  assert (E : exists L, from_tokens ex_drop_tokens = Ok L /\ exists out, lex L [97; 98]%N = Ok out /\ length out = 1).
  { eexists. split; [compute_ok|]. eexists; split; [compute_ok|]. reflexivity. }
  destruct E as (L & E1 & E2).
  exists ex_drop_tokens, L, [97; 98]%N, [(0, 0, [97]%N); (1, 1, [98]%N)]. split; auto. split; [|split; [|split; [|split; auto]]].
  - intros h h' a b Hh Hh' Ha Hb. apply Sl in Ha; auto. apply Sl in Hb; auto. unfold covers.
    destruct Ha as [->|[-> | ->]], Hb as [->|[-> | ->]]; simpl;
    first [left; intros c; lia | right; left; intros c; lia].
  - intros h Hh x Hx. destruct (S h x Hh Hx) as [->|[->|[->| ->]]]; simpl; auto.
    simpl in Hh. destruct Hh as [<-|[<-|[<-|[]]]]; simpl; auto.
  - apply (MTok _ _ 0 [97]%N [98]%N 0).
    + split; [discriminate|]. split; [split; [eexists; split; [reflexivity|apply Ll]|intros; lia]|].
      intros u' v' i' Ev Hf. apply Fm in Hf as [->|[-> | ->]]; simpl in *; try lia. discriminate.
    + apply (MTok _ _ 1 [98]%N [] 1).
      * split; [discriminate|]. split.
        -- split; [eexists; split; [reflexivity|apply Ll]|]. intros [|j] h Hj Hh HL; [|lia].
           injection Hh as <-. apply Lg in HL. discriminate.
        -- intros u' v' i' Ev Hf. apply Fm in Hf as [->|[-> | ->]]; simpl in *; try lia. discriminate.
      * apply MEnd.
Qed.
Print Assumptions C15_maximal_munch_refuted.

(** for pieces that refine the ranges the tokens are always an initial part of the reference's, and
    all of them when every end of the input that is the beginning of a token is a token. *)
Theorem C15_maximal_munch_partial :
  forall tokens L, from_tokens tokens = Ok L -> split_refines (map snd tokens) ->
  (forall h, In h (map snd tokens) -> productive h) ->
  forall input, exists ts more rest, answer tokens L input ts /\
    Munch (viable (map snd tokens)) (first_match (map snd tokens)) 0 input (ts ++ more) rest /\
    ((forall a b, input = a ++ b -> b <> [] -> viable (map snd tokens) b ->
        exists i, first_match (map snd tokens) b i) -> more = []).
Proof.
  intros tokens L HL Hn Hp input.
  destruct (lex_exact tokens L input HL Hn) as (lv & ts & r & HT & El & Ea & Hdl & Hdec & Hlv).
  specialize (Hlv Hp).
  set (hs := map snd tokens) in *.
  (* the same relation with decidable predicates on all words *)
  set (lv' := fun w => w <> [] /\ viable hs w). set (fm' := fun w i => w <> [] /\ first_match hs w i).
  assert (HT' : Tokenize lv' fm' 0 input ts r).
  { revert HT. apply tokenize_ext.
    - intros w Hw. rewrite (Hlv w Hw). unfold lv'. tauto.
    - intros w i Hw. unfold fm'. tauto. }
  assert (D1 : forall w, lv' w \/ ~ lv' w).
  { intros w. destruct w as [|c w]; [right; intros []; congruence|].
    destruct (Hdl (c :: w)) as [H|H]; [discriminate|left; split; [discriminate|apply Hlv; auto; discriminate]|].
    right. intros [_ Hv]. apply H, Hlv; auto. discriminate. }
  assert (D2 : forall w, (exists i, fm' w i) \/ forall i, ~ fm' w i).
  { intros w. destruct w as [|c w]; [right; intros i []; congruence|].
    destruct (Hdec (c :: w)) as [[i H]|H]; [discriminate|left; exists i; split; auto; discriminate|].
    right. intros i [_ Hv]. eapply H; eauto. }
  assert (G : forall pos s ts r, Munch lv' fm' pos s ts r -> Munch (viable hs) (first_match hs) pos s ts r).
  { clear. intros pos s ts r H.
    assert (Hs : forall c, skippable lv' c <-> skippable (viable hs) c).
    { intros c. unfold skippable, lv'. split; intros [H1 H2]; split; auto.
      - intros H3. apply H2. split; auto. discriminate.
      - intros [_ H3]; auto. }
    assert (Hno : forall s, no_match fm' s <-> no_match (first_match hs) s).
    { intros x. unfold no_match, fm'. split; intros H' u v i E Hu.
      - intros Hf. eapply H'; eauto. - intros [_ Hf]. eapply H'; eauto. }
    assert (Hlo : forall u i s, longest fm' u i s -> longest (first_match hs) u i s).
    { intros u i x (H1 & (_ & H2) & H3). split; auto. split; auto. intros [|c u'] v' i' E Hf; [simpl; lia|].
      eapply H3; eauto. split; eauto. discriminate. }
    induction H.
    - constructor.
    - apply MTok; auto.
    - apply MSkip; auto; [apply Hs; auto|apply Hno; auto].
    - apply MStop; [apply Hno; auto|rewrite <- Hs; auto]. }
  assert (Dc : (forall a b, input = a ++ b -> b <> [] -> viable hs b -> exists i, first_match hs b i) \/
     ~ (forall a b, input = a ++ b -> b <> [] -> viable hs b -> exists i, first_match hs b i)).
  { clear - D1 D2. induction input as [|c s IH].
    - left. intros a b E Hb. symmetry in E. apply app_eq_nil in E as [_ ->]. congruence.
    - destruct IH as [IH|IH].
      + destruct (D1 (c :: s)) as [[_ Hv]|Hv].
        * destruct (D2 (c :: s)) as [[i [_ Hi]]|Hi].
          -- left. intros [|x a] b E Hb Hvb; simpl in E.
             ++ subst b. eauto. ++ injection E as <- E. eapply IH; eauto.
          -- right. intros H. destruct (H [] (c :: s) eq_refl) as [i Hf]; [discriminate|auto|].
             apply (Hi i). split; auto. discriminate.
        * left. intros [|x a] b E Hb Hvb; simpl in E.
          -- subst b. exfalso. apply Hv. split; auto.
          -- injection E as <- E. eapply IH; eauto.
      + right. intros H. apply IH. intros a b E Hb Hv. apply (H (c :: a) b); auto. rewrite E; auto. }
  destruct Dc as [Hc|Hc].
  - exists ts, [], r. split; [split; auto|]. rewrite app_nil_r. split; auto. apply G.
    apply tokenize_munch; auto. intros a b E Hb [_ Hv]. destruct (Hc a b E Hb Hv) as [i Hi].
    exists i. split; auto.
  - destruct (tokenize_munch_prefix lv' fm' D1 D2 0 input ts r HT') as (more & rest & HM).
    exists ts, more, rest. split; [split; auto|]. split; [apply G; auto|]. intros Hc'. exfalso. auto.
Qed.
Print Assumptions C15_maximal_munch_partial.

(** In particular for every input that ends in a character no definition mentions, such as a
    final newline. *)
Theorem C15_final_newline_partial :
  forall tokens L, from_tokens tokens = Ok L -> split_refines (map snd tokens) ->
  (forall h, In h (map snd tokens) -> productive h) ->
  forall text c, (forall h m, In h (map snd tokens) -> hir_label h m -> ~ covers m c) ->
  exists ts rest, answer tokens L (text ++ [c]) ts /\
    Munch (viable (map snd tokens)) (first_match (map snd tokens)) 0 (text ++ [c]) ts rest.
Proof.
  intros tokens L HL Hn Hp text c Hc.
  destruct (C15_maximal_munch_partial tokens L HL Hn Hp (text ++ [c])) as (ts & more & rest & Ha & HM & Hmore).
  rewrite Hmore, app_nil_r in HM; eauto.
  intros a b E Hb Hv. exfalso. destruct (exists_last Hb) as (b' & x & ->).
  rewrite app_assoc in E. apply app_inj_tail in E as [_ <-].
  destruct Hv as (h & v & Hh & HL'). destruct (lang_chars h _ HL' c) as (m & Hm & Hcm).
  { apply in_or_app; left. apply in_or_app; right. left; auto. }
  eapply Hc; eauto.
Qed.
Print Assumptions C15_final_newline_partial.

Example C15_nonvacuous :
  split_refines (map snd ex_tokens) /\ (forall h, In h (map snd ex_tokens) -> productive h) /\
  (forall h m, In h (map snd ex_tokens) -> hir_label h m -> ~ covers m 10%N) /\
  exists L, from_tokens ex_tokens = Ok L.
Proof.
  split; [exact (well_nested_split _ ex_tokens_nested)|]. split; [exact ex_tokens_productive|].
  split; [|eexists; compute_ok].
  intros h m Hh Hm. apply ex_tokens_labels in Hm; auto. unfold covers.
  destruct Hm as [->|[->|[->| ->]]]; simpl; lia.
Qed.

(** The reference answer is unique, so the theorems above determine the tokens. *)
Theorem C15_reference_unique :
  forall hs input ts r ts' r',
  Munch (viable hs) (first_match hs) 0 input ts r ->
  Munch (viable hs) (first_match hs) 0 input ts' r' -> ts = ts' /\ r = r'.
Proof.
  intros hs input ts r ts' r' H H'. eapply munch_det; eauto. apply first_match_fun.
Qed.
Print Assumptions C15_reference_unique.
