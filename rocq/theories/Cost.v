(** What lexing, parsing and building the lexer cost: the number of iterations of the loops and the number
    of states.  Proofs for PropsCost.v. *)
From Verif Require Import Base Regex Nfa NfaProofs Overlap OverlapProofs OverlapLaminar Dfa DfaProofs
  Lex LexSpec LexLoop NfaLive LexNfa LexProofs.
From Verif Require Import Grammar GrammarSpec GrammarProofs Table TableFacts Parse ParseSpec TreeFacts Auto ParseProofs ParseTerm.

(** ** Lexing *)

Fixpoint tri (n : nat) : nat := match n with O => 0 | S m => S m + tri m end.
Lemma tri_spec n : 2 * tri n = n * (n + 1).
Proof. induction n as [|n IH]; auto. cbn [tri]. nia. Qed.
Lemma tri_mono m n : m <= n -> tri m <= tri n.
Proof. induction 1; auto. cbn [tri]. lia. Qed.

Section LexCost.
  Variables (L : lexer) (input : list N).
  Let n := length input.

  Definition cinv (s : lstate) : Prop :=
    ls_begin s <= ls_forward s <= n /\ forall k a, ls_last s = Some (k, a) -> ls_begin s <= k < n.
  (** The characters not read since the beginning of the current token, and what restarting costs. *)
  Definition left_ (s : lstate) : nat := (n - ls_forward s) + tri (n - ls_begin s - 1).

  Lemma lex_step_cost s s' : cinv s -> lex_step L input s = inl s' -> cinv s' /\ left_ s' < left_ s.
  Proof.
    intros (Hbf & Hl) E. unfold lex_step in E. destruct (nth_error input (ls_forward s)) as [c|] eqn:Ec; [|discriminate].
    apply nth_error_lt in Ec. fold n in Ec.
    assert (Hnew : forall ts x k, ls_begin s <= k < n ->
              cinv (LState ts x (k + 1) (k + 1) None) /\ left_ (LState ts x (k + 1) (k + 1) None) < left_ s).
    { intros ts x k Hk. split.
      - split; cbn [ls_begin ls_forward ls_last]; [lia|discriminate].
      - unfold left_. cbn [ls_begin ls_forward].
        assert (n - (k + 1) + tri (n - (k + 1) - 1) = tri (n - (k + 1))) as ->.
        { destruct (n - (k + 1)) as [|m]; [reflexivity|]. cbn [tri]. replace (S m - 1) with m by lia. reflexivity. }
        pose proof (tri_mono (n - (k + 1)) (n - ls_begin s - 1)). lia. }
    assert (Hadv : forall x o, (forall k a, o = Some (k, a) -> ls_begin s <= k < n) ->
              cinv (LState (ls_tokens s) x (ls_begin s) (S (ls_forward s)) o) /\
              left_ (LState (ls_tokens s) x (ls_begin s) (S (ls_forward s)) o) < left_ s).
    { intros x o Ho. split; [split; cbn [ls_begin ls_forward ls_last]; [lia|exact Ho]|].
      unfold left_. cbn [ls_begin ls_forward]. lia. }
    destruct (d_edge_iter (lx_dfa L) (ls_state s)) as [oes|p|]; try discriminate.
    destruct (match oes with Some es => find (fun e => matches (de_label e) c) es | None => None end) as [e|].
    - destruct (map_get (de_to e) (lx_accepting L)) as [[|a l]|]; try discriminate; injection E as <-; apply Hadv; auto.
      intros k a' Ek. injection Ek as <- _. lia.
    - destruct (ls_last s) as [[k a]|] eqn:El.
      + destruct (make_tok L input (ls_begin s) k a); try discriminate. injection E as <-. apply Hnew. eauto.
      + destruct (is_whitespace c && (ls_forward s =? ls_begin s)) eqn:Ew; [|discriminate].
        apply andb_true_iff in Ew as [_ Ew]. apply Nat.eqb_eq in Ew. injection E as <-. rewrite Ew.
        replace (S (ls_begin s)) with (ls_begin s + 1) by lia. apply Hnew. lia.
  Qed.

  Lemma nsteps_cost k s s' : nsteps (lex_step L input) k s s' -> cinv s -> cinv s' /\ k + left_ s' <= left_ s.
  Proof.
    induction 1 as [s|k s s1 s2 E H IH]; intros Hs; [split; auto|].
    destruct (lex_step_cost _ _ Hs E) as [H1 Hlt]. destruct (IH H1) as [H2 Hle]. split; auto. lia.
  Qed.

  Lemma cinv_init : cinv (LState [] 0 0 0 None).
  Proof. split; cbn [ls_begin ls_forward ls_last]; [lia|discriminate]. Qed.
  Lemma left_init : left_ (LState [] 0 0 0 None) = tri n.
  Proof.
    unfold left_. cbn [ls_begin ls_forward]. rewrite !Nat.sub_0_r. destruct n as [|m]; auto. cbn [tri].
    replace (S m - 1) with m by lia. reflexivity.
  Qed.

  (** The loop ends. *)
  Lemma lex_ends : exists k s, nsteps (lex_step L input) k (LState [] 0 0 0 None) s /\ lex_step L input s = inr (lex L input) /\ k <= tri n.
  Proof.
    unfold lex. set (b := 2 * _). pose proof (run_nsteps (lex_step L input) b (LState [] 0 0 0 None)) as H.
    destruct (run (lex_step L input) b (LState [] 0 0 0 None)) as [s|r].
    - exfalso. apply nsteps_cost in H as [_ H]; [|exact cinv_init]. rewrite left_init in H.
      assert (tri n < 2 ^ b).
      { apply steps_enough with (input := input). unfold mu. cbn [ls_begin ls_forward]. fold n. pose proof (tri_spec n). nia. }
      lia.
    - destruct H as (k & s & _ & Hk & E). exists k, s. split; auto. split; auto.
      apply nsteps_cost in Hk as [_ Hk]; [|exact cinv_init]. rewrite left_init in Hk. lia.
  Qed.
End LexCost.

(** ** Parsing *)

Section ParseCost.
  Variables (g : grammar) (start : str).
  Hypothesis W : wf_grammar g start.
  Hypothesis Hst : g_start g = aug_name start.
  Variable t : tables.
  Hypothesis A : auto g t.
  Hypothesis He : eps_free g.
  Hypothesis Heof : eof_free g.
  Variables (tokens w : list nat).
  Hypothesis Hend : ended tokens w.

  Lemma parse_cost : exists a, nth_error tokens 0 = Some a /\
    (forever g t tokens (parse_init a) \/
     exists m c, m <= (2 * length w + 1) * (length (g_prods g) + 2) /\
       nsteps (parse_step g t tokens) m (parse_init a) c /\ parse_step g t tokens c = inr (parse_impl g t tokens)).
  Proof using W A He Heof Hend.
    destruct (parse_ends g start W t A He tokens w Hend Heof) as (a & Ea & H). exists a. split; auto.
    destruct H as [[_ Hc]|(m & c & r & Hm & Er & E)]; [left; eapply cyclic_forever, Hc|].
    destruct (inv_init g t tokens w Hend) as (a' & tl & Et & HI). rewrite Et in Ea. injection Ea as <-.
    destruct (ends_or_cycles g start W t A He tokens w Hend Heof (2 * length w + 1) (parse_init a') [] HI) as [Hc|(m' & c' & r' & Hm' & Hn & Er')].
    { unfold phi, parse_init. cbn [ps_i ps_stack length]. lia. }
    { left. eapply cyclic_forever, Hc. }
    right. exists m', c'. split; [|split; auto].
    - replace (length (g_prods g) + 2) with (S (length (g_prods g)) + 1) by lia. exact Hm'.
    - assert (m = m') as <-.
      { destruct (Nat.lt_trichotomy m m') as [Hlt|[Heq|Hlt]]; auto; exfalso.
        - replace m' with (m + (m' - m)) in Hn by lia. apply nsteps_split in Hn as (d & H1 & H2).
          pose proof (nsteps_det _ _ _ _ _ Hm H1) as <-. inversion H2; subst; [lia|congruence].
        - replace m with (m' + (m - m')) in Hm by lia. apply nsteps_split in Hm as (d & H1 & H2).
          pose proof (nsteps_det _ _ _ _ _ Hn H1) as <-. inversion H2; subst; [lia|congruence]. }
      pose proof (nsteps_det _ _ _ _ _ Hm Hn) as <-. congruence.
  Qed.

  (** The stack holds at most one entry per token read. *)
  Lemma parse_depth m : forall a c, nth_error tokens 0 = Some a -> nsteps (parse_step g t tokens) m (parse_init a) c ->
    length (ps_stack c) <= ps_i c + 1 /\ ps_i c <= length w.
  Proof using W A He Heof Hend.
    intros a c Ea H. destruct (inv_init g t tokens w Hend) as (a' & tl & Et & HI). rewrite Et in Ea. injection Ea as <-.
    assert (Hd : length (ps_stack (parse_init a')) <= ps_i (parse_init a') + 1) by (cbn; lia).
    revert HI Hd. generalize (@nil tree). generalize dependent (parse_init a'). intros c0 H.
    induction H as [c|m c c1 c2 E H IH]; intros ts HI Hd; [split; [exact Hd|apply HI]|].
    destruct (inv_step g start W t A tokens w Hend Heof c c1 ts HI E) as [ts1 HI1]. apply (IH ts1 HI1).
    pose proof (step_outcome g t A tokens c ts (proj1 HI)) as O. rewrite E in O.
    inversion O as [q s x j E1 H1 H2 H3 H4 E5|p pr q' s' j q s k' E1 Hp Hk Hne Hl E2 Hs' Hm Hk' Hg Ht E5| | |]; subst; cbn [ps_stack ps_i].
    - rewrite E1 in Hd. cbn [length] in *. lia.
    - assert (Hlen : length (q' :: s') = length (q :: s) - length (p_syms pr)) by (rewrite <- E2, skipn_length; reflexivity).
      destruct (He pr (nth_error_In _ _ Hp)) as [Hne' _].
      assert (length (p_syms pr) <> 0) by (destruct (p_syms pr); [congruence|discriminate]).
      rewrite E1 in Hd. cbn [length] in *. lia.
  Qed.
End ParseCost.

(** ** The size of the NFA *)

(** What an expression takes: two states for a class, a repetition or an alternation, and one for each
    range or literal in it. *)
Fixpoint hsize (h : hir) : nat :=
  match h with
  | HEmpty | HAnchor | HWordBoundary => 0
  | HLit _ => 1
  | HClass rs => 2 + length rs
  | HRep _ h => 2 + hsize h
  | HGroup h => hsize h
  | HConcat hs => list_sum (map hsize hs)
  | HAlt hs => 2 + list_sum (map hsize hs)
  end.

Lemma push_edge_nst n f l t n' : push_edge n f l t = Ok n' -> nst n' = nst n.
Proof.
  unfold push_edge. destruct (f <? length (states n)); [|discriminate]. intros E. injection E as <-. unfold nst. simpl. apply update_nth_length.
Qed.
Lemma push_edge_if_nst b n f t n' : push_edge_if b n f t = Ok n' -> nst n' = nst n.
Proof. destruct b; simpl; [apply push_edge_nst|]. intros E. injection E as <-; auto. Qed.
Lemma compile_match_nst n r a n' t : compile_match n r a = Ok (n', t) -> nst n' = nst n + 1.
Proof.
  unfold compile_match. intros E. apply bind_ok in E as (n1 & E1 & E). injection E as <- _. rewrite (push_edge_nst _ _ _ _ _ E1). apply nst_push_state.
Qed.
Lemma push_targets_nst ts : forall n i n', push_targets n i ts = Ok n' -> nst n' = nst n.
Proof.
  induction ts as [|t ts IH]; intros n i n' E; simpl in E; [injection E as <-; auto|].
  apply bind_ok in E as (t' & _ & E). apply bind_ok in E as (n1 & E1 & E). rewrite (IH _ _ _ E). eapply push_edge_nst; eauto.
Qed.
Lemma compile_ranges_nst rs : forall n a n' ts, compile_ranges n rs a = Ok (n', ts) -> nst n' = nst n + length rs.
Proof.
  induction rs as [|r rs IH]; intros n a n' ts E; simpl in E; [injection E as <- _; simpl; lia|].
  apply bind_ok in E as ([n1 t] & E1 & E). apply bind_ok in E as ([n2 ts'] & E2 & E). injection E as <- _.
  rewrite (IH _ _ _ _ E2), (compile_match_nst _ _ _ _ _ E1). simpl. lia.
Qed.

Lemma compile_nst h : forall n a n' r, compile h n a = Ok (n', r) -> nst n' = nst n + hsize h.
Proof.
  induction h as [|c|rs| | |k h IH|h IH|hs IH|hs IH] using hir_ind'; intros n a n' r E; cbn [hsize].
  - injection E as <- _. lia.
  - eapply compile_match_nst; eauto.
  - cbn [compile] in E. apply bind_ok in E as (n1 & E1 & E). apply bind_ok in E as ([n2 ts] & E2 & E). apply bind_ok in E as (n3 & E3 & E).
    injection E as <- _. rewrite (push_targets_nst _ _ _ _ E3), (compile_ranges_nst _ _ _ _ _ E2), nst_push_state, (push_edge_nst _ _ _ _ _ E1), nst_push_state, map_length. lia.
  - discriminate.
  - discriminate.
  - assert (G : (let s_out := length (states n) in
      let* (n1, r) := compile h (push_state n) s_out in
      let* s_in := unwrap r in
      let* n2 := push_edge n1 s_out None a in
      let* n3 := push_edge_if (rep_loops k) n2 s_out s_in in
      let i := length (states n3) in
      let* n4 := push_edge (push_state n3) i None s_in in
      let* n5 := push_edge_if (rep_skips k) n4 i a in
      Ok (n5, Some i)) = Ok (n', r)) by (destruct k; auto; discriminate).
    clear E. cbv zeta in G. apply bind_ok in G as ([n1 r1] & E1 & G). apply bind_ok in G as (si & _ & G). apply bind_ok in G as (n2 & E2 & G).
    apply bind_ok in G as (n3 & E3 & G). apply bind_ok in G as (n4 & E4 & G). apply bind_ok in G as (n5 & E5 & G). injection G as <- _.
    rewrite (push_edge_if_nst _ _ _ _ _ E5), (push_edge_nst _ _ _ _ _ E4), nst_push_state, (push_edge_if_nst _ _ _ _ _ E3),
      (push_edge_nst _ _ _ _ _ E2), (IH _ _ _ _ E1), nst_push_state. lia.
  - cbn [compile] in E. eauto.
  - cbn [compile] in E. apply bind_ok in E as ([n1 a1] & E1 & E). injection E as <- _. revert n1 a1 E1.
    induction IH as [|e hs He _ IHl]; intros n1 a1 E1; [injection E1 as <- _; simpl; lia|].
    apply bind_ok in E1 as ([n2 a2] & E2 & E1). apply bind_ok in E1 as ([n3 r3] & E3 & E1). apply bind_ok in E1 as (a3 & _ & E1).
    injection E1 as <- _. rewrite (He _ _ _ _ E3), (IHl _ _ E2). simpl. lia.
  - cbn [compile] in E. apply bind_ok in E as (n1 & E1 & E). apply bind_ok in E as ([n2 ts] & E2 & E). apply bind_ok in E as (n3 & E3 & E).
    injection E as <- _. rewrite (push_targets_nst _ _ _ _ E3). apply push_edge_nst in E1. rewrite nst_push_state in E1.
    enough (nst n2 = nst (push_state n1) + list_sum (map hsize hs)) by (rewrite nst_push_state in *; lia).
    clear E3 E1. revert E2. generalize (push_state n1). generalize (length (states n)). clear n1. intros f m E2. revert m n2 ts E2.
    induction IH as [|e hs He _ IHl]; intros m n2 ts E2; [injection E2 as <- _; simpl; lia|].
    apply bind_ok in E2 as ([m1 t1] & E3 & E2). apply bind_ok in E2 as ([m2 ts2] & E4 & E2). injection E2 as <- _.
    rewrite (IHl _ _ _ E4), (He _ _ _ _ E3). simpl. lia.
Qed.

Lemma from_regex_nst h n : from_regex h = Ok n -> nst n = 2 + hsize h.
Proof.
  unfold from_regex. intros E. apply bind_ok in E as ([n1 s] & E1 & E). rewrite (push_edge_nst _ _ _ _ _ E).
  rewrite (compile_nst _ _ _ _ _ E1). reflexivity.
Qed.

Lemma lex_nfa_nst tokens n tmap : lex_nfa tokens = Ok (n, tmap) -> nst n = 1 + list_sum (map (fun t => 2 + hsize (snd t)) tokens).
Proof.
  intros E. destruct (lex_nfa_ok _ _ _ E) as (ns & HF & -> & _). rewrite fold_glue_nst. change (nst (tmpl ns)) with 1. f_equal.
  clear E. induction HF as [|t m tokens ns Hm _ IH]; auto. cbn [map list_sum fold_right]. change (total (m :: ns)) with (nst m + total ns).
  rewrite IH, (from_regex_nst _ _ Hm). reflexivity.
Qed.

(** ** The states of the lexer's automaton *)

(** [(a|b)*a(a|b)(a|b)...]: an [a] that [k] characters follow. *)
Definition ab : hir := HClass [(97, 98)]%N.
Definition kth_from_end (k : nat) : hir := HConcat (HRep ZeroOrMore ab :: HLit 97%N :: repeat ab k).

Definition isab (c : N) : Prop := (c = 97 \/ c = 98)%N.
Lemma lang_ab w : Lang ab w <-> exists c, w = [c] /\ isab c.
Proof.
  split.
  - intros H. inversion H as [| |? ? ? c Hin Hc| | | | | | | | | |]; subst. destruct Hin as [E|[]]. injection E as <- <-. exists c. split; auto. unfold isab. lia.
  - intros (c & -> & Hc). eapply L_class; [left; reflexivity|]. destruct Hc as [-> | ->]; lia.
Qed.
Lemma lang_star w : Lang (HRep ZeroOrMore ab) w <-> Forall isab w.
Proof.
  split.
  - intros H. remember (HRep ZeroOrMore ab) as h eqn:Eh. induction H; try discriminate; [constructor|].
    injection Eh as ->. apply Forall_app. split; auto. apply lang_ab in H as (c & -> & Hc). auto.
  - induction 1 as [|c w Hc H IH]; [constructor|]. change (c :: w) with ([c] ++ w). constructor; auto. apply lang_ab. eauto.
Qed.
Lemma lang_tail k : forall w, Lang (HConcat (repeat ab k)) w <-> Forall isab w /\ length w = k.
Proof.
  induction k as [|k IH]; intros w; cbn [repeat].
  - split; [intros H; inversion H; subst; auto|]. intros [_ Hl]. destruct w; [constructor|discriminate].
  - split.
    + intros H. inversion H as [| | | | | | | | | | |? ? w1 w2 H1 H2 E E2|]; subst. apply lang_ab in H1 as (c & -> & Hc).
      apply IH in H2 as [H2 <-]. simpl. auto.
    + intros [Hf Hl]. destruct w as [|c w]; [discriminate|]. change (c :: w) with ([c] ++ w).
      inversion Hf; subst. constructor; [apply lang_ab; eauto|]. apply IH. auto.
Qed.
Lemma lang_kth k w : Lang (kth_from_end k) w <-> exists u v, w = u ++ 97%N :: v /\ Forall isab u /\ Forall isab v /\ length v = k.
Proof.
  unfold kth_from_end. split.
  - intros H. inversion H as [| | | | | | | | | | |? ? w1 w2 H1 H2 E E2|]; subst. apply lang_star in H1.
    inversion H2 as [| | | | | | | | | | |? ? w3 w4 H3 H4 E E2|]; subst. inversion H3; subst.
    apply lang_tail in H4 as [H4 H5]. exists w1, w4. auto.
  - intros (u & v & -> & Hu & Hv & Hl). constructor; [apply lang_star; auto|].
    change (97%N :: v) with ([97%N] ++ v). constructor; [constructor|]. apply lang_tail. auto.
Qed.

Fixpoint words (k : nat) : list (list N) :=
  match k with O => [[]] | S k => map (cons 97%N) (words k) ++ map (cons 98%N) (words k) end.
Lemma words_length k : length (words k) = 2 ^ k.
Proof. induction k as [|k IH]; auto. cbn [words Nat.pow]. rewrite app_length, !map_length. lia. Qed.
Lemma words_In k : forall w, In w (words k) -> Forall isab w /\ length w = k.
Proof.
  induction k as [|k IH]; intros w H; cbn [words] in H.
  - destruct H as [<-|[]]. auto.
  - apply in_app_or in H as [H|H]; apply in_map_iff in H as (v & <- & H); apply IH in H as [H1 H2];
      (split; [constructor; auto; unfold isab; auto|simpl; auto]).
Qed.
Lemma words_nodup k : NoDup (words k).
Proof.
  induction k as [|k IH]; cbn [words]; [repeat constructor; auto|].
  assert (Hm : forall c, NoDup (map (cons c) (words k))).
  { intros c. apply FinFun.Injective_map_NoDup; auto. intros x y E. injection E; auto. }
  assert (Hd : forall x, In x (map (cons 97%N) (words k)) -> ~ In x (map (cons 98%N) (words k))).
  { intros x H1 H2. apply in_map_iff in H1 as (y & <- & _). apply in_map_iff in H2 as (z & E & _). discriminate. }
  generalize (Hm 97%N) (Hm 98%N). revert Hd. generalize (map (cons 98%N) (words k)). generalize (map (cons 97%N) (words k)). clear.
  intros l. induction l as [|x l IHl]; intros l' Hd H1 H2; simpl; auto. inversion H1; subst. constructor.
  - intros H. apply in_app_or in H as [H|H]; [auto|]. apply (Hd x); simpl; auto.
  - apply IHl; auto. intros y Hy. apply Hd. simpl; auto.
Qed.

(** Where two words of the same length differ. *)
Lemma differ (u : list N) : forall v, Forall isab u -> Forall isab v -> length u = length v -> u <> v ->
  exists p c d x y, u = p ++ c :: x /\ v = p ++ d :: y /\ c <> d /\ isab c /\ isab d.
Proof.
  induction u as [|c u IH]; intros [|d v] Hu Hv Hl Hne; try discriminate; [congruence|].
  inversion Hu; inversion Hv; subst. destruct (N.eq_dec c d) as [<-|Hcd].
  - destruct (IH v) as (p & c' & d' & x & y & -> & -> & H); auto; [congruence|]. exists (c :: p), c', d', x, y. auto.
  - exists [], c, d, u, v. auto.
Qed.

Lemma kth_tells k p c d x y : isab c -> isab d -> c <> d -> length (p ++ c :: x) = S k -> Forall isab (p ++ c :: x) ->
  length (p ++ d :: y) = S k -> Forall isab (p ++ d :: y) ->
  ~ (Lang (kth_from_end k) ((p ++ c :: x) ++ repeat 98%N (length p)) <-> Lang (kth_from_end k) ((p ++ d :: y) ++ repeat 98%N (length p))).
Proof.
  assert (Hr : forall m, Forall isab (repeat 98%N m)) by (induction m; simpl; constructor; auto; unfold isab; auto).
  assert (Hin : forall x, length (p ++ 97%N :: x) = S k -> Forall isab (p ++ 97%N :: x) ->
            Lang (kth_from_end k) ((p ++ 97%N :: x) ++ repeat 98%N (length p))).
  { intros z Hl Hf. apply lang_kth. exists p, (z ++ repeat 98%N (length p)). split; [rewrite <- app_assoc; reflexivity|].
    apply Forall_app in Hf as [H1 H2]. inversion H2; subst. split; auto. split; [apply Forall_app; auto|].
    rewrite app_length, repeat_length. rewrite app_length in Hl. simpl in Hl. lia. }
  assert (Hout : forall x, length (p ++ 98%N :: x) = S k -> ~ Lang (kth_from_end k) ((p ++ 98%N :: x) ++ repeat 98%N (length p))).
  { intros z Hl HL. apply lang_kth in HL as (u & v & E & _ & _ & Hv).
    rewrite <- app_assoc in E. simpl in E. assert (Hlen : length p = length u).
    { apply (f_equal (@length N)) in E. rewrite !app_length in E. simpl in E. rewrite app_length, repeat_length in E.
      rewrite app_length in Hl. simpl in Hl. lia. }
    apply app_len_inj in E as [_ E]; auto. discriminate. }
  intros [-> | ->] [-> | ->] Hcd H1 H2 H3 H4 Hiff; try congruence.
  - apply (Hout y H3). apply Hiff. auto.
  - apply (Hout x H1). apply Hiff. auto.
Qed.

Section Exp.
  Variables (td : token_def) (k : nat) (L : lexer).
  Hypothesis HL : from_tokens [(td, kth_from_end k)] = Ok L.

  Lemma kth_split : split_refines [kth_from_end k].
  Proof.
    apply tame_split. assert (Hw : forall r, In r (flat_map written [kth_from_end k]) -> r = (97, 98)%N \/ r = (97, 99)%N).
    { intros r Hr. simpl in Hr. rewrite app_nil_r in Hr. destruct Hr as [<-|[<-|Hr]]; auto.
      right. clear -Hr. induction k as [|k' IH]; simpl in Hr; [destruct Hr|]. destruct Hr as [<-|Hr]; auto. }
    intros a c b Ha Hc Hb H1 H2 H3 H4. exfalso. apply Hw in Ha, Hb. destruct Ha as [-> | ->], Hb as [-> | ->]; simpl in *; lia.
  Qed.
  Lemma kth_productive : productive (kth_from_end k).
  Proof.
    assert (Hab : forall x, subterm x ab -> x = ab) by (intros x H; inversion H; auto).
    assert (G : forall x, x = ab -> match x with HAlt hs => hs <> [] | HClass rs => rs <> [] /\ forall lo hi, In (lo, hi) rs -> (lo <= hi)%N | _ => True end).
    { intros x ->. split; [discriminate|]. intros lo hi [E|[]]. injection E as <- <-. lia. }
    intros x H. unfold kth_from_end in H. inversion H as [|? ? h H1|? h H1|? h hs Hin H1|? h hs Hin H1]; subst; auto.
    destruct Hin as [<-|[<-|Hin]].
    - inversion H1 as [|? ? h H2|? h H2|? h hs Hin H2|? h hs Hin H2]; subst; auto. apply G, Hab, H2.
    - inversion H1; subst; auto.
    - apply repeat_spec in Hin. subst h. apply G, Hab, H1.
  Qed.

  Lemma kth_states : 2 ^ S k <= length (d_first (lx_dfa L)).
  Proof.
    destruct (lexer_parts _ L HL) as
      (ns & Nf & al & ds & HF & ENf & Hw & Hst & Hno & Ed & Eal & Hok & _ & _ & Hacc & Hlang & Hlab & Hlive).
    assert (Ha : alpha_ok (edge_labels (edges Nf)) al).
    { apply split_alpha_ok; auto. intros r p c c' Hr Hpp H1 H2 H3.
      assert (Eset : set_of_list (edge_labels (edges Nf)) = set_of_list (flat_map written (map snd [(td, kth_from_end k)]))).
      { apply ssorted_ext; try apply set_of_list_sorted. intros x. rewrite !set_of_list_In. apply Hlab. }
      rewrite Eset in Eal. apply (kth_split al Eal r p c c'); auto. apply Hlab in Hpp. exact Hpp. }
    destruct (from_nfa_tracks Nf (lx_dfa L) Hw Hst Hno (ex_intro _ al (conj Eal Ha)) Ed) as (T1 & T2 & _).
    inversion HF as [|? n1 ? ns1 Hn1 HF1]; subst. inversion HF1; subst ns1.
    destruct (nth_error (blocks 1 [n1]) 0) as [[o n']|] eqn:Eb; [|discriminate Eb].
    specialize (Hlang 0 o n' (kth_from_end k)).
    set (d := lx_dfa L) in *. set (ed := edges (fold_left glue [n1] (tmpl [n1]))) in *.
    assert (Hl : forall w, path ed START_IDX w (1 + o) <-> Lang (kth_from_end k) w) by (intros w; apply Hlang; auto).
    (* every word over [a] and [b] can be read *)
    assert (Hreads : forall u, Forall isab u -> exists s, follows d 0 u s).
    { intros u Hu. apply T1. assert (HLu : Lang (kth_from_end k) (u ++ 97%N :: repeat 97%N k)).
      { apply lang_kth. exists u, (repeat 97%N k). split; auto. split; auto. split; [|apply repeat_length].
        clear. induction k; simpl; constructor; auto. unfold isab; auto. }
      apply Hl in HLu. apply path_prefix in HLu as (x & Hx & _). eauto. }
    assert (Hap : forall u v t, follows d 0 (u ++ v) t -> exists s, follows d 0 u s /\ follows d s v t).
    { intros u v. generalize 0. induction u as [|c u IH]; intros s0 t Hf; simpl in Hf; [exists s0; split; auto; constructor|].
      inversion Hf as [|? ? ? ? l1 e l2 El Hfr Hm Hmin Hr]; subst. destruct (IH _ _ Hr) as (s & F1 & F2).
      exists s. split; auto. eapply follows_cons; eauto. }
    (* different words of this length lead to different states *)
    assert (Hinj : forall u v s, In u (words (S k)) -> In v (words (S k)) -> follows d 0 u s -> follows d 0 v s -> u = v).
    { intros u v s Hu Hv Fu Fv. apply words_In in Hu as [Hu Hlu]. apply words_In in Hv as [Hv Hlv].
      destruct (list_eq_dec N.eq_dec u v) as [Heq|Hne]; auto. exfalso.
      destruct (differ u v Hu Hv) as (p & c & e & x & y & -> & -> & Hce & Hc & He); auto; [congruence|].
      apply (kth_tells k p c e x y); auto.
      set (z := repeat 98%N (length p)).
      assert (Hz : Forall isab z) by (subst z; clear; induction (length p); simpl; constructor; auto; unfold isab; auto).
      destruct (Hreads ((p ++ c :: x) ++ z)) as (t1 & F1); [apply Forall_app; auto|].
      destruct (Hreads ((p ++ e :: y) ++ z)) as (t2 & F2); [apply Forall_app; auto|].
      assert (t1 = t2) as <-.
      { destruct (Hap _ _ _ F1) as (s1 & G1 & G1'). destruct (Hap _ _ _ F2) as (s2 & G2 & G2').
        rewrite (follows_det _ _ _ _ _ G1 Fu) in G1'. rewrite (follows_det _ _ _ _ _ G2 Fv) in G2'.
        eapply follows_det; eauto. }
      destruct (T2 ((p ++ c :: x) ++ z) t1 ltac:(destruct p; discriminate) F1) as (q & Eq1 & Q1).
      destruct (T2 ((p ++ e :: y) ++ z) t1 ltac:(destruct p; discriminate) F2) as (q' & Eq2 & Q2).
      rewrite Eq1 in Eq2. injection Eq2 as <-. rewrite <- !Hl. rewrite <- Q1, <- Q2. reflexivity. }
    assert (Hlt : forall u s, follows d 0 u s -> s < length (d_first d)).
    { assert (H0 : 0 < length (d_first d)).
      { pose proof Hok as ((c0 & (_ & _ & H3) & _) & _ & _ & (Hle & _) & _). rewrite Hle. destruct ds; simpl; [|lia].
        exfalso. apply nth_error_lt in H3. simpl in H3. lia. }
      revert H0. generalize 0. intros s0 H0 u. revert s0 H0. induction u as [|c u IH]; intros s0 H0 s Hf.
      - inversion Hf; subst; auto.
      - inversion Hf as [|? ? ? ? l1 e l2 El Hfr Hm Hmin Hr]; subst. apply (IH (de_to e)); auto.
        pose proof Hok as (_ & _ & _ & (Hle & _) & _). rewrite Hle.
        assert (Hin : In e (d_edges d)) by (rewrite El; apply in_or_app; simpl; auto).
        destruct (dfa_ok_edge _ _ _ _ _ Hok Hin) as (q & es & _ & Hrow & Hin').
        destruct (row_In _ _ _ _ _ _ _ Hrow Hin') as (u' & _ & _ & _ & Hu). apply nth_error_lt in Hu. auto. }
    assert (Hmap : forall ws, NoDup ws -> incl ws (words (S k)) ->
              exists ss, length ss = length ws /\ NoDup ss /\ forall s, In s ss -> exists u, In u ws /\ follows d 0 u s).
    { induction ws as [|u ws IH]; intros Hnd Hi; [exists []; split; auto; split; [constructor|intros ? []]|].
      inversion Hnd; subst. destruct IH as (ss & E & Hns & Hss); auto; [intros y Hy; apply Hi; simpl; auto|].
      destruct (Hreads u) as (s & Fs); [apply (words_In (S k)), Hi; simpl; auto|].
      exists (s :: ss). split; [simpl; auto|]. split.
      - constructor; auto. intros Hin. destruct (Hss _ Hin) as (v & Hv & Fv).
        assert (u = v) as <- by (apply (Hinj u v s); auto; apply Hi; simpl; auto). auto.
      - intros s' [<-|Hs']; [exists u; simpl; auto|]. destruct (Hss _ Hs') as (v & Hv & Fv). exists v. simpl; auto. }
    destruct (Hmap (words (S k)) (words_nodup _) (incl_refl _)) as (ss & E & Hnd & Hss).
    rewrite <- words_length, <- E, <- (seq_length (length (d_first d)) 0). apply NoDup_incl_length; auto.
    intros s Hs. destruct (Hss _ Hs) as (u & _ & Fu). apply in_seq. split; [lia|]. simpl. eauto.
  Qed.
End Exp.
