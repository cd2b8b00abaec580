(** The tokens with an entry in a state are those that can come next after a prefix of the state. *)
From Verif Require Import Base Grammar GrammarSpec GrammarProofs First FirstProofs Item ItemSpec ItemProofs ItemPlain Table TableSpec MergeProofs TableProofs TableFacts
  Parse ParseSpec TreeFacts Auto ParseProofs ParseTerm ParseCycle ParseComplete Report ReportSpec ReportProofs ReportExact ViableSpec ViableProofs ViableTables.

Section Report.
  Variables (g : grammar) (start : str).
  Hypothesis W : wf_grammar g start.
  Hypothesis Hst : g_start g = aug_name start.
  Hypothesis He : eps_free g.
  Hypothesis Heof : eof_free g.
  Hypothesis Hprod : all_productive g.
  Variables (hash : list item -> N) (t : tables).
  Hypothesis Ht : make_tables hash g = Ok t.
  Let A : auto g t := tables_auto g start W Hst hash t Ht.
  Let V := st_valid g start W He Heof Hprod hash t Ht.

  Lemma complete_next u p d k : valid g start u p d k -> complete g p d -> comes_next g start u k.
  Proof using W.
    intros (pr & a & w & Hp & Hd & -> & H & Hw & Hk) (pr' & Hp' & ->). rewrite Hp in Hp'. injection Hp' as <-. rewrite firstn_all.
    exists w. split; auto. rewrite <- app_assoc. destruct H as [(-> & -> & ->)|H].
    - rewrite app_nil_r. rewrite (wg_prod0 _ _ W) in Hp. injection Hp as <-. apply rd_refl.
    - eapply rd_step; eauto. exists pr. split; [eapply nth_error_In, Hp|auto].
  Qed.
  Lemma shift_next u p d k x kx : valid g start u p d k -> sym_at g p d x -> terminal x -> tok g kx x -> comes_next g start u kx.
  Proof using W Hprod.
    intros Hv Hx Hxt Hkx. destruct (valid_form g start W _ _ _ _ _ Hv Hx) as (w & Hr & Hw & _).
    destruct (productive_all g Hprod _ (rest_used g p (S d))) as (m & Hm & _ & Hd).
    exists (x :: m ++ w). split; [|split; [constructor; auto; apply Forall_app; auto|exact Hkx]].
    change (u ++ x :: m ++ w) with (u ++ [x] ++ m ++ w). rewrite app_assoc. apply (rd_derives g _ _ _ _ _ Hd Hm Hw).
    rewrite <- app_assoc. exact Hr.
  Qed.
  Lemma entry_next i k a : tbl_get (t_action t) i k = Some a -> exists u, state_for g start t u i /\ comes_next g start u k.
  Proof using W Hst He Heof Hprod Ht.
    intros Ha. destruct a as [j|p|].
    - destruct (a_shift _ _ A _ _ _ Ha) as (x & Hx & Hk & (p & d & k' & Hi & Hs) & _). apply V in Hi as (u & Hu & Hv).
      exists u. split; auto. eapply shift_next; eauto.
    - apply (a_reduce _ _ A) in Ha as (_ & d & Hc & Hi). apply V in Hi as (u & Hu & Hv). exists u. split; auto. eapply complete_next; eauto.
    - apply (a_accept _ _ A) in Ha as (-> & d & Hc & Hi). apply V in Hi as (u & Hu & Hv). exists u. split; auto. eapply complete_next; eauto.
  Qed.

  (** Where a rightmost sentential form is cut: before the end of the handle, at it, or after it. *)
  Lemma next_exists w : terminals w -> Forall (used g) w -> exists k, next_token g w k.
  Proof using W Heof.
    intros _ Hu. destruct w as [|x w]; [exists 0; reflexivity|]. inversion Hu as [|? ? Hx _]; subst.
    destruct (used_token g start W x Hx) as [k Hk]. exists k. cbn. eapply nth_tok; eauto.
  Qed.
  Lemma form_cut form : rderives g [SNon start] form ->
    (forall u x v, form = u ++ x :: v -> terminal x ->
      (exists p d k, valid g start u p d k /\ sym_at g p d x) \/
      exists u1 c p d k, u = u1 ++ c /\ terminals c /\ valid g start u1 p d k /\ complete g p d /\ next_token g (c ++ [x]) k) /\
    exists u1 c p d k, form = u1 ++ c /\ terminals c /\ valid g start u1 p d k /\ complete g p d /\ next_token g c k.
  Proof using W He Heof.
    induction 1 as [|a B b w Hr [IH _] (pr & Hin & Hn & Hb) Hw].
    - split.
      + intros u x v E Hx. destruct u as [|y u]; [injection E as <- _; exfalso; eapply Hx; reflexivity|injection E as _ E; destruct u; discriminate].
      + exists [SNon start], [], 0, 1, 0. split; auto. split; [constructor|]. split.
        * exists (Production (aug_name start) [SNon start] None None), [], []. split; [apply (wg_prod0 _ _ W)|]. split; [cbn; lia|].
          split; auto. split; auto. split; [constructor|reflexivity].
        * split; [|reflexivity]. exists (Production (aug_name start) [SNon start] None None). split; [apply (wg_prod0 _ _ W)|reflexivity].
    - destruct (In_nth_error _ _ Hin) as [p Hp].
      assert (Hu : Forall (used g) w).
      { pose proof (proj1 (rd_lr_at g start W He Heof _ Hr)) as H. apply Forall_app in H as [_ H]. inversion H; auto. }
      destruct (next_exists w Hw Hu) as [k Hk].
      assert (Hv : forall d, d <= length (p_syms pr) -> valid g start (a ++ firstn d (p_syms pr)) p d k).
      { intros d Hd. exists pr, a, w. split; auto. split; auto. split; auto. split; [right; rewrite Hn; exact Hr|auto]. }
      assert (Hv' : valid g start (a ++ b) p (length (p_syms pr)) k).
      { specialize (Hv _ (le_n _)). rewrite firstn_all, Hb in Hv. rewrite Hb. exact Hv. }
      assert (Hc : complete g p (length (p_syms pr))) by (exists pr; auto).
      split; [|exists (a ++ b), w, p, (length (p_syms pr)), k; rewrite <- app_assoc; auto].
      intros u x v E Hx. symmetry in E. apply app_eq_mid in E as [(c & -> & ->)|(a' & E & ->)].
      + apply (IH u x (c ++ SNon B :: w)); auto. rewrite <- app_assoc. reflexivity.
      + symmetry in E. apply app_eq_mid in E as [(e & E & ->)|(c & E & ->)].
        * left. exists p, (length a'), k. split.
          -- specialize (Hv (length a')). rewrite Hb, E, firstn_app, Nat.sub_diag, firstn_all in Hv. cbn [firstn] in Hv. rewrite app_nil_r in Hv.
             apply Hv. rewrite app_length. lia.
          -- exists pr. split; auto. rewrite Hb, E. apply nth_error_app_mid.
        * right. exists (a ++ b), c, p, (length (p_syms pr)), k. split; [apply app_assoc|]. rewrite E in Hw, Hk. split; [apply Forall_app in Hw; tauto|].
          split; auto. split; auto. destruct c; exact Hk.
  Qed.

  Hypothesis Hcl : closed g t.

  (** After the end of a handle only its reduction is possible, as there are no conflicts. *)
  Lemma handle_last u1 y c p d k : viable g start (u1 ++ y :: c) -> terminal y -> tok g k y -> valid g start u1 p d k -> complete g p d -> False.
  Proof using W Hst He Heof Hprod Ht Hcl.
    intros (p1 & d1 & k1 & Hv) Hy Hk Hu Hc. pose proof (lr_at_iff g start W He Heof Hprod) as E.
    assert (Hne : exists p d k, lr_at g (u1 ++ [y]) p d k).
    { apply E in Hv. change (y :: c) with ([y] ++ c) in Hv. rewrite app_assoc in Hv. revert Hv. generalize (u1 ++ [y]) as u. intros u.
      revert p1 d1 k1. induction c as [|x c IH] using rev_ind; intros p1 d1 k1 H; [rewrite app_nil_r in H; eauto|].
      rewrite app_assoc, lr_at_snoc in H. apply (clo_some g) in H as (q & e & l & e' & _ & H & _). eauto. }
    destruct Hne as (q & e & l & H). rewrite lr_at_snoc in H. apply (clo_some g) in H as (q' & e' & l' & e1 & -> & H & Hs). apply E in H.
    destruct (some_state g start W He Heof Hprod hash t Ht u1) as [i Hi]; [exists p, d, k; exact Hu|].
    assert (H1 : st t i p d k) by (apply V; eauto). assert (H2 : st t i q' e1 l') by (apply V; eauto).
    destruct (Hcl i q' e1 l' y H2 Hs) as [H3 _]. destruct (H3 Hy k Hk) as [j Hj]. rewrite (a_complete _ _ A _ _ _ _ H1 Hc) in Hj.
    destruct ((k =? 0) && (p =? 0)); discriminate.
  Qed.

  Lemma next_entry i u k : i < length (t_states t) -> state_for g start t u i -> comes_next g start u k -> exists a, tbl_get (t_action t) i k = Some a.
  Proof using W Hst He Heof Hprod Ht Hcl.
    intros Hi Hu (w & Hr & Hw & Hk).
    assert (Hv : viable g start u).
    { destruct (nth_error (t_states t) i) as [s|] eqn:Es; [|apply nth_error_None in Es; lia].
      destruct (make_tables_built _ _ _ _ W Ht) as (lr0 & m & B).
      destruct (lalr_nonempty g start W lr0 (b_items _ _ _ _ _ B) _ m (b_merged _ _ _ _ _ B) s (nth_error_In _ _ Es)) as (p & d & l & H).
      destruct (proj1 (Hu p d)) as [l' Hl']; [exists l, s; auto|]. exists p, d, l'. exact Hl'. }
    assert (Hcomp : forall p d, valid g start u p d k -> complete g p d -> exists a, tbl_get (t_action t) i k = Some a).
    { intros p d H Hc. eexists. eapply (a_complete _ _ A); eauto. apply V. eauto. }
    destruct (form_cut _ Hr) as [H1 H2]. destruct w as [|x w].
    - rewrite app_nil_r in *. cbn in Hk. subst k. destruct H2 as (u1 & c & p & d & k & -> & Hc & Hp & Hd & Hn). destruct c as [|y c].
      + rewrite app_nil_r in *. cbn in Hn. subst k. eauto.
      + exfalso. inversion Hc; subst. cbn in Hn. eapply handle_last; eauto.
    - inversion Hw as [|? ? Hx _]; subst. cbn in Hk. destruct (H1 u x w eq_refl Hx) as [(p & d & l & Hp & Hs)|(u1 & c & p & d & l & -> & Hc & Hp & Hd & Hn)].
      + assert (H3 : st t i p d l) by (apply V; eauto). destruct (Hcl i p d l x H3 Hs) as [H4 _]. destruct (H4 Hx k Hk) as [j Hj]. eauto.
      + destruct c as [|y c].
        * rewrite app_nil_r in *. cbn in Hn. assert (l = k) as -> by (eapply tok_unique; eauto). eauto.
        * exfalso. inversion Hc; subst. cbn in Hn. eapply handle_last; eauto.
  Qed.

  Hypothesis Hf : start_fresh g.

  (** The symbols on the stack are a prefix of the state on top. *)
  Lemma stacked_state s ts : stacked g t s ts -> forall q s', s = q :: s' -> q < length (t_states t) /\
    exists l, map (root g) (rev ts) = map Some l /\ state_for g start t l q.
  Proof using W Hst He Heof Hprod Ht Hf.
    induction 1 as [|q0 q' s0 ts tr x Hs IH Htr Ho Hr]; intros q s' E; injection E as <- <-.
    - split; [destruct (a_init _ _ A) as (s & Hs & _); eapply nth_error_lt, Hs|]. exists []. split; auto. eapply state_for_0; eauto.
    - split; [destruct Htr as [(p & d & k & s & Hs' & _) _]; eapply nth_error_lt, Hs'|].
      destruct (IH _ _ eq_refl) as (_ & l & El & HI). exists (l ++ [x]).
      split; [cbn [rev]; rewrite !map_app, El; cbn [map]; rewrite Hr; reflexivity|]. eapply state_for_trans; eauto.
  Qed.
  Lemma report_state tokens w r : ended tokens w -> parse_report g t tokens = Some r -> exists i u l,
    i < length (t_states t) /\ rp_valid r = tbl_valid (t_action t) i /\ state_for g start t u i /\
    symbols g (firstn (rp_pos r) w) l /\ derives g u l.
  Proof using W Hst He Heof Hprod Ht Hf.
    intros Hend H. apply reported in H as (c & q & s & Hc & E & Es & ->). cbn [rp_valid rp_pos].
    destruct (reached_inv g _ W Hst hash t Ht Heof tokens w c Hend Hc) as (ts & Hs & _ & _ & _ & Hy). pose proof Hs as Hs'. rewrite Es in Hs'.
    destruct (stacked_state _ _ Hs' _ _ eq_refl) as (Hq & l & El & Hl). exists q, l, (flat_map yield (rev ts)). split; auto. split; auto. split; auto. split; auto.
    apply (forest_derives' g); auto. apply Forall_rev. eapply stacked_ok; eauto.
  Qed.
End Report.
