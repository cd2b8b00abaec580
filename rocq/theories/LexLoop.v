(** The lexing loop computes [Tokenize] over the DFA's own notion of live and accepted text. *)
From Verif Require Import Base Regex Nfa NfaProofs Overlap OverlapProofs OverlapLaminar Dfa DfaProofs Lex LexSpec.

(** The loop of the Rust lexer (lex.rs:167-209) ends with [forward] at [i]. *)
Definition ends_at (L : lexer) (input : list N) (i : nat) : Prop :=
  exists n s r, nsteps (lex_step L input) n (LState [] 0 0 0 None) s /\ lex_step L input s = inr r /\ ls_forward s = i.

Lemma halts_cons live s x ts r k : halts live s ts r k ->
  (ts = [] -> forall pre, length pre = fst (fst x) -> s = pre ++ snd x ++ r -> ~ live (snd x ++ r)) -> halts live s (x :: ts) r k.
Proof.
  intros [(Hk & [H|[H|(ts' & pre & i & u & -> & E & H)]])|[Hn H]] Hx; [left; split; auto..|right; split; auto]; [left; auto|right; left; auto|right; right|].
  - exists (x :: ts'), pre, i, u. auto.
  - intros [H'|[H'|(ts' & pre & i & u & Et & E & H')]]; [apply Hn; left; auto|apply Hn; right; left; auto|].
    destruct ts' as [|y ts']; injection Et as -> ->.
    + exact (Hx eq_refl pre eq_refl E H').
    + apply Hn. right; right. exists ts', pre, i, u. auto.
Qed.

Lemma app_len_inj {A} (a b x y : list A) : a ++ x = b ++ y -> length a = length b -> a = b /\ x = y.
Proof.
  revert b; induction a as [|c a IH]; intros [|d b] E Hl; try discriminate; auto. injection E as -> E. injection Hl as Hl.
  destruct (IH b E Hl) as [-> ->]. auto.
Qed.

Lemma prefix_cases {A} (a b u v : list A) : a ++ b = u ++ v ->
  (exists x, u = a ++ x /\ b = x ++ v) \/ (exists x, a = u ++ x /\ v = x ++ b).
Proof.
  revert u; induction a as [|y a IH]; intros u E; simpl in *.
  - left. exists u; auto.
  - destruct u as [|z u]; simpl in *.
    + right. exists (y :: a). subst; auto.
    + injection E as -> E. destruct (IH u E) as [(x & -> & ->)|(x & -> & ->)]; [left|right]; exists x; auto.
Qed.

(** The loop of [lex], with any way of making tokens: [lex_step L input] is
    [lstep L input (make_tok L input)]. *)
Definition lfinish (make : nat -> nat -> nat -> res token) (s : lstate) : res (list token) :=
  match ls_last s with
  | Some (k, a) => let* t := make (ls_begin s) k a in Ok (ls_tokens s ++ [t])
  | None => Ok (ls_tokens s)
  end.
Definition lstep (L : lexer) (input : list N) (make : nat -> nat -> nat -> res token) (s : lstate) : lstate + res (list token) :=
  match nth_error input (ls_forward s) with
  | None => inr (lfinish make s)
  | Some c =>
      match d_edge_iter (lx_dfa L) (ls_state s) with
      | Panic p => inr (Panic p)
      | Diverge => inr Diverge
      | Ok oes =>
          let matching := match oes with
                          | Some es => find (fun e => matches (de_label e) c) es
                          | None => None
                          end in
          match matching with
          | Some e =>
              match map_get (de_to e) (lx_accepting L) with
              | Some [] => inr (Panic PUnwrapNone)
              | Some (a :: _) => inl (LState (ls_tokens s) (de_to e) (ls_begin s) (S (ls_forward s)) (Some (ls_forward s, a)))
              | None => inl (LState (ls_tokens s) (de_to e) (ls_begin s) (S (ls_forward s)) (ls_last s))
              end
          | None =>
              match ls_last s with
              | Some (k, a) =>
                  match make (ls_begin s) k a with
                  | Ok t => inl (LState (ls_tokens s ++ [t]) 0 (k + 1) (k + 1) None)
                  | Panic p => inr (Panic p)
                  | Diverge => inr Diverge
                  end
              | None =>
                  if is_whitespace c && (ls_forward s =? ls_begin s) then
                    inl (LState (ls_tokens s) (ls_state s) (S (ls_begin s)) (S (ls_forward s)) None)
                  else inr (lfinish make s)
              end
          end
      end
  end.
Lemma lstep_lex L input s : lstep L input (make_tok L input) s = lex_step L input s.
Proof. reflexivity. Qed.

Section Loop.
  Variable L : lexer.
  Let d := lx_dfa L.
  Definition liveD (w : list N) : Prop := exists t, d_run (lx_dfa L) 0 w = Ok (Some t).
  Definition accD (w : list N) (a : nat) : Prop :=
    exists t l, d_run (lx_dfa L) 0 w = Ok (Some t) /\ map_get t (lx_accepting L) = Some (a :: l).

  Hypothesis Hrun : forall w, exists o, d_run d 0 w = Ok o.
  Hypothesis Hne : forall t l, map_get t (lx_accepting L) = Some l -> l <> [].

  Lemma liveD_prefix u v : liveD (u ++ v) -> liveD u.
  Proof.
    intros [t Ht]. rewrite d_run_app in Ht. destruct (d_run (lx_dfa L) 0 u) as [[s|]|p|] eqn:E; try discriminate.
    exists s; auto.
  Qed.

  Lemma accD_live u a : accD u a -> liveD u.
  Proof. intros (t & l & H & _). exists t; auto. Qed.

  Lemma liveD_dec w : liveD w \/ ~ liveD w.
  Proof.
    destruct (Hrun w) as [[t|] E].
    - left; exists t; auto.
    - right. intros [t Ht]. unfold d in E. congruence.
  Qed.

  Lemma accD_dec w : (exists a, accD w a) \/ (forall a, ~ accD w a).
  Proof.
    destruct (Hrun w) as [[t|] E]; unfold d in E.
    - destruct (map_get t (lx_accepting L)) as [[|a l]|] eqn:Em.
      + exfalso. eapply Hne; eauto.
      + left. exists a, t, l. auto.
      + right. intros a (t' & l & Ht & Hl). congruence.
    - right. intros a (t' & l & Ht & Hl). congruence.
  Qed.

  Lemma longest_or_none s :
    (exists u v i, s = u ++ v /\ longest accD u i s) \/ no_match accD s.
  Proof.
    assert (G : forall n, (exists u v i, s = u ++ v /\ u <> [] /\ accD u i /\ length u <= n /\
                  forall u' v' i', s = u' ++ v' -> accD u' i' -> length u' <= n -> length u' <= length u)
              \/ (forall u v i, s = u ++ v -> u <> [] -> length u <= n -> ~ accD u i)).
    { induction n as [|n IH].
      - right. intros u v i _ Hu Hl. destruct u; [congruence|simpl in Hl; lia].
      - destruct (le_lt_dec (S n) (length s)) as [Hle|Hgt].
        + destruct (accD_dec (firstn (S n) s)) as [[a Ha]|Hno].
          * left. exists (firstn (S n) s), (skipn (S n) s), a. rewrite firstn_skipn.
            assert (length (firstn (S n) s) = S n) by (rewrite firstn_length; lia).
            split; auto. split; [intros E; rewrite E in *; discriminate|]. split; auto. split; [lia|].
            intros; lia.
          * destruct IH as [(u & v & i & Es & Hu & Ha & Hl & Hmax)|IH].
            -- left. exists u, v, i. split; auto. split; auto. split; auto. split; [lia|].
               intros u' v' i' E' Ha' Hl'. destruct (Nat.eq_dec (length u') (S n)) as [Heq|].
               ++ exfalso. apply (Hno i'). rewrite E', firstn_app, <- Heq, firstn_all, Nat.sub_diag. simpl.
                  rewrite app_nil_r; auto.
               ++ eapply Hmax; eauto; lia.
            -- right. intros u v i Es Hu Hl Ha. destruct (Nat.eq_dec (length u) (S n)) as [Heq|].
               ++ apply (Hno i). rewrite Es, firstn_app, <- Heq, firstn_all, Nat.sub_diag. simpl.
                  rewrite app_nil_r; auto.
               ++ eapply IH; eauto; lia.
        + destruct IH as [(u & v & i & Es & Hu & Ha & Hl & Hmax)|IH].
          * left. exists u, v, i. split; auto. split; auto. split; auto. split; [lia|].
            intros u' v' i' E' Ha' Hl'. eapply Hmax; eauto. rewrite E', app_length in Hgt. lia.
          * right. intros u v i Es Hu Hl. eapply IH; eauto. rewrite Es, app_length in Hgt. lia. }
    destruct (G (length s)) as [(u & v & i & Es & Hu & Ha & Hl & Hmax)|H].
    - left. exists u, v, i. split; auto. split; auto. split; auto.
      intros u' v' i' E' Ha'. eapply Hmax; eauto. rewrite E', app_length. lia.
    - right. intros u v i Es Hu. eapply H; eauto. rewrite Es, app_length. lia.
  Qed.

  Lemma skippable_dec c : skippable liveD c \/ ~ skippable liveD c.
  Proof.
    unfold skippable, white. destruct (liveD_dec [c]); [tauto|].
    destruct (N.eq_dec c 10), (N.eq_dec c 32); tauto.
  Qed.

  Lemma tokenize_total : forall n s pos, length s <= n -> exists ts r, Tokenize liveD accD pos s ts r.
  Proof.
    induction n as [|n IH]; intros s pos Hl.
    - destruct s; [|simpl in Hl; lia]. exists [], []. constructor.
    - destruct (longest_or_none s) as [(u & v & i & -> & Hlo)|Hno].
      + destruct (liveD_dec (u ++ v)).
        * exists [(pos, i, u)], v. apply TkLast; auto.
        * assert (u <> []) by apply Hlo. destruct (IH v (pos + length u)) as (ts & r & Ht).
          { rewrite app_length in Hl. destruct u; [congruence|simpl in Hl; lia]. }
          exists ((pos, i, u) :: ts), r. apply TkTok; auto.
      + destruct s as [|c v]; [exists [], []; constructor|].
        destruct (skippable_dec c).
        * destruct (IH v (S pos)) as (ts & r & Ht); [simpl in Hl; lia|].
          exists ts, r. apply TkSkip; auto.
        * exists [], (c :: v). apply TkStop; auto.
  Qed.

  Variable input : list N.
  Variable make : nat -> nat -> nat -> res token.

  Definition mk (x : nat * nat * list N) : res token :=
    let '(pos, a, u) := x in make pos (pos + length u - 1) a.

  Definition linv_ (s : lstate) (pre cur rest : list N) : Prop :=
    input = pre ++ cur ++ rest /\ length pre = ls_begin s /\
    ls_forward s = length pre + length cur /\
    d_run (lx_dfa L) 0 cur = Ok (Some (ls_state s)) /\
    match ls_last s with
    | None => no_match accD cur
    | Some (k, a) => exists u u', cur = u ++ u' /\ k + 1 = length pre + length u /\ longest accD u a cur
    end.

  Definition good (s t : lstate) (r : res (list token)) : Prop :=
    exists ts e, Tokenize liveD accD (ls_begin s) (skipn (ls_begin s) input) ts e /\
      r = (let* l := mapM mk ts in Ok (ls_tokens s ++ l)) /\
      ls_forward t <= length input /\ ((exists out, r = Ok out) -> halts liveD input ts e (length input - ls_forward t)).

  Definition mu (s : lstate) : nat :=
    (length input - ls_begin s) * (length input + 1) + (length input - ls_forward s).

  (** A prefix of [cur ++ c :: rest] that is accepted lies within [cur] when [c] is stuck. *)
  Lemma stuck_prefix cur c rest u v i : ~ liveD (cur ++ [c]) -> cur ++ c :: rest = u ++ v -> accD u i ->
    exists x, cur = u ++ x.
  Proof.
    intros Hst E Ha. destruct (prefix_cases _ _ _ _ E) as [(x & -> & Ex)|(x & -> & Ex)]; [|eauto].
    destruct x as [|c' x]; simpl in Ex.
    - exists []. rewrite !app_nil_r; auto.
    - injection Ex as <- Ex. exfalso. apply Hst. apply accD_live in Ha.
      change (c :: x) with ([c] ++ x) in Ha. rewrite app_assoc in Ha. apply liveD_prefix in Ha; auto.
  Qed.

  Lemma skipn_pre {A} (pre l : list A) n : n = length pre -> skipn n (pre ++ l) = l.
  Proof. intros ->. rewrite skipn_app, skipn_all, Nat.sub_diag; auto. Qed.

  Lemma lstep_good : forall m s pre cur rest, mu s = m -> linv_ s pre cur rest ->
    exists n t r, nsteps (lstep L input make) n s t /\ lstep L input make t = inr r /\ n <= m /\ good s t r.
  Proof.
    induction m as [m IH] using lt_wf_ind. intros s pre cur rest Hmu (Hi & Hb & Hf & Hr & Hl).
    assert (Hsk : skipn (ls_begin s) input = cur ++ rest) by (rewrite Hi; apply skipn_pre; auto).
    assert (Hnth : nth_error input (ls_forward s) = nth_error rest 0).
    { rewrite Hi, app_assoc, nth_error_app2; rewrite app_length; [|lia]. f_equal. lia. }
    assert (Hlen : length input = length pre + length cur + length rest).
    { rewrite Hi, !app_length. lia. }
    assert (Hcont : forall s' pre' cur' rest', lstep L input make s = inl s' -> linv_ s' pre' cur' rest' ->
              mu s' < mu s -> (forall t r, good s' t r -> good s t r) ->
              exists n t r, nsteps (lstep L input make) n s t /\ lstep L input make t = inr r /\ n <= m /\ good s t r).
    { intros s' pre' cur' rest' Es Hinv Hlt Hg.
      destruct (IH (mu s') ltac:(lia) s' pre' cur' rest' eq_refl Hinv) as (n & t & r & H1 & H2 & H3 & H4).
      exists (S n), t, r. split; [econstructor; eauto|]. split; auto. split; [lia|auto]. }
    assert (Hstop : forall r, lstep L input make s = inr r -> good s s r ->
              exists n t r, nsteps (lstep L input make) n s t /\ lstep L input make t = inr r /\ n <= m /\ good s t r).
    { intros r Es Hg. exists 0, s, r. split; [constructor|]. split; auto. split; [lia|auto]. }
    unfold lstep in Hcont, Hstop. rewrite Hnth in Hcont, Hstop.
    destruct rest as [|c rest]; simpl in Hcont, Hstop.
    - (* end of the input *)
      eapply Hstop; [reflexivity|]. rewrite app_nil_r in *. unfold good, lfinish. rewrite Hsk.
      destruct (ls_last s) as [[k a]|].
      + destruct Hl as (u & u' & -> & Hk & Hlo). exists [(ls_begin s, a, u)], u'. split.
        * apply TkLast; auto. exists (ls_state s); auto.
        * split; [|split; [simpl in Hlen; lia|]].
          -- simpl. replace (ls_begin s + length u - 1) with k by lia.
             destruct (make (ls_begin s) k a); reflexivity.
          -- intros _. left. split; [simpl in Hlen; lia|]. right; right. exists [], pre, a, u.
             split; [rewrite Hb; reflexivity|]. split; auto. exists (ls_state s). auto.
      + exists [], cur. split; [|split; [simpl; rewrite app_nil_r; auto|split; [simpl in Hlen; lia|]]].
        2: { intros _. left. split; [simpl in Hlen; lia|]. right; left. exists (ls_state s). auto. }
        destruct cur as [|c0 cur]; [constructor|]. apply TkStop; auto. intros [_ Hnl]. apply Hnl.
        apply (liveD_prefix [c0] cur). exists (ls_state s); auto.
    - destruct (Hrun (cur ++ [c])) as [o Ho]. unfold d in Ho. rewrite d_run_app, Hr in Ho. simpl in Ho.
      unfold d_next in Ho.
      destruct (d_edge_iter (lx_dfa L) (ls_state s)) as [oes|p|] eqn:Ei; simpl in Ho; try discriminate.
      set (matching := match oes with Some es => find (fun e => matches (de_label e) c) es | None => None end) in *.
      assert (Hm : (match oes with None => None
                    | Some es => option_map de_to (find (fun e => matches (de_label e) c) es) end)
                   = option_map de_to matching).
      { unfold matching. destruct oes; auto. }
      rewrite Hm in Ho. destruct matching as [e|] eqn:Em; simpl in Ho; injection Ho as <-.
      + (* the edge is followed *)
        assert (Hr' : d_run (lx_dfa L) 0 (cur ++ [c]) = Ok (Some (de_to e))).
        { rewrite d_run_app, Hr. simpl. unfold d_next. rewrite Ei. simpl. rewrite Hm. auto. }
        assert (Hg : forall s' t r, ls_begin s' = ls_begin s -> ls_tokens s' = ls_tokens s -> good s' t r -> good s t r).
        { intros s' t r E1 E2. unfold good. rewrite E1, E2. auto. }
        assert (Hcc : cur ++ c :: rest = (cur ++ [c]) ++ rest) by (rewrite <- app_assoc; auto).
        destruct (map_get (de_to e) (lx_accepting L)) as [[|a l]|] eqn:Ea.
        * exfalso. eapply Hne; eauto.
        * eapply (Hcont _ pre (cur ++ [c]) rest); [reflexivity| | |].
          -- split; [rewrite <- Hcc; auto|]. simpl. split; auto.
             split; [rewrite app_length; simpl; lia|]. split; auto.
             exists (cur ++ [c]), []. rewrite app_nil_r. split; auto.
             split; [rewrite app_length; simpl; lia|]. split; [destruct cur; discriminate|].
             split; [exists (de_to e), l; auto|]. intros u' v' i' E' _. rewrite E'. rewrite app_length. lia.
          -- unfold mu. simpl ls_begin. simpl ls_forward. simpl in Hlen. lia.
          -- intros t r. apply Hg; auto.
        * eapply (Hcont _ pre (cur ++ [c]) rest); [reflexivity| | |].
          -- split; [rewrite <- Hcc; auto|]. simpl. split; auto.
             split; [rewrite app_length; simpl; lia|]. split; auto.
             assert (Hna : forall i, ~ accD (cur ++ [c]) i).
             { intros i (t & l & Ht & Hl'). congruence. }
             destruct (ls_last s) as [[k a]|].
             ++ destruct Hl as (u & u' & -> & Hk & (Hlo1 & Hlo2 & Hlo3)). exists u, (u' ++ [c]).
                rewrite <- app_assoc. split; auto. split; auto. split; auto. split; auto.
                intros x y i E Hx. rewrite app_assoc in E.
                destruct (prefix_cases _ _ _ _ E) as [(z & -> & Ez)|(z & Ez & _)].
                ** destruct z as [|c' z]; simpl in Ez.
                   --- rewrite app_nil_r in *. eapply (Hlo3 _ []); eauto. rewrite app_nil_r; auto.
                   --- injection Ez as <- Ez. symmetry in Ez. apply app_eq_nil in Ez as [-> _].
                       exfalso. eapply Hna; eauto.
                ** eapply Hlo3; eauto.
             ++ intros x y i E Hx Ha.
                destruct (prefix_cases _ _ _ _ E) as [(z & -> & Ez)|(z & Ez & _)].
                ** destruct z as [|c' z]; simpl in Ez.
                   --- rewrite app_nil_r in *. eapply (Hl cur []); eauto. rewrite app_nil_r; auto.
                   --- injection Ez as <- Ez. symmetry in Ez. apply app_eq_nil in Ez as [-> _].
                       eapply Hna; eauto.
                ** eapply Hl; eauto.
          -- unfold mu. simpl ls_begin. simpl ls_forward. simpl in Hlen. lia.
          -- intros t r. apply Hg; auto.
      + (* stuck *)
        assert (Hst : ~ liveD (cur ++ [c])).
        { intros [t Ht]. rewrite d_run_app, Hr in Ht. simpl in Ht. unfold d_next in Ht. rewrite Ei in Ht.
          simpl in Ht. rewrite Hm in Ht. discriminate. }
        assert (Hst2 : ~ liveD (cur ++ c :: rest)).
        { intros Hlv. apply Hst. apply (liveD_prefix _ rest). rewrite <- app_assoc. auto. }
        destruct (ls_last s) as [[k a]|] eqn:Elast.
        * destruct Hl as (u & u' & -> & Hk & (Hlo1 & Hlo2 & Hlo3)).
          assert (Hlo : longest accD u a (u ++ u' ++ c :: rest)).
          { split; auto. split; auto. intros x y i E Hx. rewrite app_assoc in E.
            destruct (stuck_prefix _ _ _ _ _ _ Hst E Hx) as [z Ez]. eapply Hlo3; eauto. }
          rewrite <- app_assoc in Hsk, Hst2.
          assert (Hpos : ls_begin s + length u - 1 = k) by lia.
          assert (Hsk' : skipn (k + 1) input = u' ++ c :: rest).
          { rewrite Hi. rewrite <- app_assoc, (app_assoc pre). apply skipn_pre. rewrite app_length. lia. }
          destruct (make (ls_begin s) k a) as [t|p|] eqn:Et.
          -- eapply (Hcont _ (pre ++ u) [] (u' ++ c :: rest)); [reflexivity| | |].
             ++ split; [rewrite Hi, <- !app_assoc; auto|]. simpl. rewrite app_length.
                split; [lia|]. split; [lia|]. split; auto. intros x y i E Hx.
                symmetry in E. apply app_eq_nil in E as [-> _]. congruence.
             ++ unfold mu. simpl ls_begin. simpl ls_forward.
                destruct u as [|c0 u]; [congruence|]. rewrite !app_length in *. simpl in *. nia.
             ++ intros t1 r (ts & e & Ht & -> & Hle & Hh). simpl in Ht. rewrite Hsk' in Ht.
                exists ((ls_begin s, a, u) :: ts), e. rewrite Hsk. split; [|split; [|split; auto]].
                ** apply TkTok; auto. rewrite Hb in Hk. rewrite <- Hk. auto.
                ** simpl. rewrite Hpos, Et. simpl. destruct (mapM mk ts); simpl; auto.
                   rewrite <- app_assoc; auto.
                ** intros Ho. apply halts_cons; [apply Hh, Ho|]. intros _ pre' Ep E. cbn [fst snd] in *. rewrite Hi, <- app_assoc in E.
                   apply app_len_inj in E as [_ E]; [|congruence]. apply app_len_inj in E as [_ <-]; [exact Hst2|reflexivity].
          -- eapply Hstop; [reflexivity|].
             destruct (tokenize_total (length (u' ++ c :: rest)) (u' ++ c :: rest) (ls_begin s + length u)) as (ts & e & Ht); auto.
             exists ((ls_begin s, a, u) :: ts), e. rewrite Hsk. split; [apply TkTok; auto|].
             split; [simpl; rewrite Hpos, Et; reflexivity|]. split; [simpl in Hlen; lia|intros [? ?]; discriminate].
          -- eapply Hstop; [reflexivity|].
             destruct (tokenize_total (length (u' ++ c :: rest)) (u' ++ c :: rest) (ls_begin s + length u)) as (ts & e & Ht); auto.
             exists ((ls_begin s, a, u) :: ts), e. rewrite Hsk. split; [apply TkTok; auto|].
             split; [simpl; rewrite Hpos, Et; reflexivity|]. split; [simpl in Hlen; lia|intros [? ?]; discriminate].
        * assert (Hno : no_match accD (cur ++ c :: rest)).
          { intros x y i E Hx Ha. destruct (stuck_prefix _ _ _ _ _ _ Hst E Ha) as [z Ez].
            eapply Hl; eauto. }
          destruct (is_whitespace c && (ls_forward s =? ls_begin s)) eqn:Ew.
          -- apply andb_true_iff in Ew as [Ew Ef]. apply Nat.eqb_eq in Ef.
             assert (cur = []) as -> by (destruct cur; auto; simpl in *; lia). simpl in *.
             assert (Hwh : white c).
             { unfold is_whitespace in Ew. apply orb_true_iff in Ew. rewrite !N.eqb_eq in Ew. auto. }
             eapply (Hcont _ (pre ++ [c]) [] rest); [reflexivity| | |].
             ++ split; [rewrite Hi, <- app_assoc; auto|]. simpl. rewrite app_length. simpl.
                split; [lia|]. split; [lia|]. split; auto.
             ++ unfold mu. simpl ls_begin. simpl ls_forward. nia.
             ++ intros t1 r (ts & e & Ht & -> & Hle & Hh). simpl in Ht.
                assert (Hsk' : skipn (S (ls_begin s)) input = rest).
                { rewrite Hi. change (c :: rest) with ([c] ++ rest). rewrite app_assoc. apply skipn_pre.
                  rewrite app_length; simpl; lia. }
                exists ts, e. rewrite Hsk. split; [|split; auto]. apply TkSkip; auto.
                ** split; auto.
                ** rewrite <- Hsk'. auto.
          -- eapply Hstop; [reflexivity|]. unfold lfinish.
             exists [], (cur ++ c :: rest). rewrite Hsk. split.
             ++ destruct cur as [|c0 cur]; simpl.
                ** apply TkStop; auto. intros [Hw _]. apply andb_false_iff in Ew as [Ew|Ew].
                   --- unfold is_whitespace in Ew. apply orb_false_iff in Ew as [E1 E2].
                       apply N.eqb_neq in E1, E2. destruct Hw; congruence.
                   --- apply Nat.eqb_neq in Ew. simpl in Hf. lia.
                ** apply TkStop; auto. intros [_ Hnl]. apply Hnl. apply (liveD_prefix [c0] cur).
                   exists (ls_state s); auto.
             ++ rewrite Elast. simpl. rewrite app_nil_r. split; [reflexivity|]. split; [simpl in Hlen; lia|].
                intros _. right. split.
                { intros [E|[E|(ts' & ? & ? & ? & E & _)]]; [destruct cur; discriminate|exact (Hst2 E)|destruct ts'; discriminate]. }
                exists cur, c, rest. split; auto. split; [simpl in Hlen; lia|]. split; [|exact Hst].
                right. exists (ls_state s). auto.
  Qed.

  Lemma size_nat_gt n : n < 2 ^ N.size_nat (N.of_nat n).
  Proof.
    pose proof (N.size_gt (N.of_nat n)) as H.
    assert (E : N.size (N.of_nat n) = N.of_nat (N.size_nat (N.of_nat n))).
    { unfold N.size, N.size_nat. destruct (N.of_nat n) as [|p]; auto. clear. induction p; simpl in *; lia. }
    rewrite E in H. pose proof (Nat2N.inj_pow 2 (N.size_nat (N.of_nat n))) as E2.
    change (N.of_nat 2) with 2%N in E2. rewrite <- E2 in H. lia.
  Qed.

  Lemma steps_enough m : m <= mu (LState [] 0 0 0 None) -> m < 2 ^ (2 * N.size_nat (N.of_nat (S (length input)))).
  Proof.
    intros H3. eapply Nat.le_lt_trans; [exact H3|]. unfold mu. simpl ls_begin. simpl ls_forward.
    rewrite Nat.mul_comm with (n := 2). rewrite Nat.pow_mul_r.
    pose proof (size_nat_gt (S (length input))) as Hs.
    set (p := 2 ^ N.size_nat (N.of_nat (S (length input)))) in *. simpl Nat.pow. nia.
  Qed.
  Lemma loop_tokenize : exists n t ts e, Tokenize liveD accD 0 input ts e /\ n < 2 ^ (2 * N.size_nat (N.of_nat (S (length input)))) /\
    nsteps (lstep L input make) n (LState [] 0 0 0 None) t /\ lstep L input make t = inr (mapM mk ts) /\
    ls_forward t <= length input /\ ((exists out, mapM mk ts = Ok out) -> halts liveD input ts e (length input - ls_forward t)).
  Proof.
    destruct (lstep_good (mu (LState [] 0 0 0 None)) (LState [] 0 0 0 None) [] [] input eq_refl)
      as (n & t & r & H1 & H2 & H3 & (ts & e & Ht & E & Hle & Hh)).
    { split; auto. simpl. split; auto. split; auto. split; auto. intros x y i E Hx.
      symmetry in E. apply app_eq_nil in E as [-> _]. congruence. }
    assert (r = mapM mk ts) as -> by (rewrite E; destruct (mapM mk ts); reflexivity).
    exists n, t, ts, e. simpl in Ht. split; auto. split; [apply steps_enough; auto|]. auto.
  Qed.
End Loop.

Lemma lex_tokenize L (Hrun : forall w, exists o, d_run (lx_dfa L) 0 w = Ok o)
  (Hne : forall t l, map_get t (lx_accepting L) = Some l -> l <> []) input :
  exists ts e i, Tokenize (liveD L) (accD L) 0 input ts e /\ lex L input = mapM (mk (make_tok L input)) ts /\
    ends_at L input i /\ i <= length input /\ ((exists out, lex L input = Ok out) -> halts (liveD L) input ts e (length input - i)).
Proof.
  destruct (loop_tokenize L Hrun Hne input (make_tok L input)) as (n & t & ts & e & Ht & H3 & H1 & H2 & Hle & Hh).
  assert (El : lex L input = mapM (mk (make_tok L input)) ts).
  { unfold lex. rewrite (nsteps_run (lex_step L input) n _ t _ _ H1 H2); auto. }
  exists ts, e, (ls_forward t). split; auto. split; auto. split; [exists n, t, (mapM (mk (make_tok L input)) ts); auto|]. split; auto.
  rewrite El. exact Hh.
Qed.

(** The same loop with the tokens' texts taken from the characters. *)
Definition make_char (L : lexer) (input : list N) (start end_ : nat) (st : nat) : res token :=
  match map_get st (lx_tokens L) with
  | Some td => Ok (Token (td_name td) (if td_with_val td then Some (firstn (end_ + 1 - start) (skipn start input)) else None))
  | None => Panic PNoToken
  end.

(** It ends at position [i] with the tokens [out]. *)
Definition char_run (L : lexer) (input : list N) (out : list token) (i : nat) : Prop :=
  exists n t, n < 2 ^ (2 * N.size_nat (N.of_nat (S (length input)))) /\ nsteps (lstep L input (make_char L input)) n (LState [] 0 0 0 None) t /\
    lstep L input (make_char L input) t = inr (Ok out) /\ ls_forward t = i.

Lemma halts_det (live : list N -> Prop) s ts r : (forall u v, live (u ++ v) -> live u) ->
  forall k k', halts live s ts r k -> halts live s ts r k' -> k = k'.
Proof.
  intros Hp.
  assert (G : forall u x v u' x' v', u ++ x :: v = u' ++ x' :: v' -> ~ live (u ++ [x]) -> u' = [] \/ live u' -> length u' <= length u).
  { intros u x v u' x' v' E Hn Hl. destruct (Nat.le_gt_cases (length u') (length u)); auto. exfalso.
    destruct (prefix_cases _ _ _ _ E) as [(z & -> & Ez)|(z & -> & _)]; [|rewrite app_length in *; lia].
    destruct z as [|c z]; [rewrite app_nil_r in *; lia|]. injection Ez as <- _.
    destruct Hl as [Hl|Hl]; [destruct u; discriminate|]. apply Hn. apply (Hp _ z). rewrite <- app_assoc. exact Hl. }
  intros k k' [[E H]|(H & u & x & v & Er & Ek & Hu & Hx)] [[E' H']|(H' & u' & x' & v' & Er' & Ek' & Hu' & Hx')]; try contradiction; try congruence.
  subst r. pose proof (G _ _ _ _ _ _ Er' Hx Hu'). pose proof (G _ _ _ _ _ _ (eq_sym Er') Hx' Hu).
  apply (f_equal (@length N)) in Er'. rewrite !app_length in Er'. cbn [length] in Er'. lia.
Qed.
