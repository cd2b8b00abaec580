(** The canonical LR(1) states hold exactly the valid items. *)
From Verif Require Import Base Grammar GrammarSpec GrammarProofs First FirstProofs Item ItemSpec ItemProofs ItemPlain Table TableSpec TableFacts
  Parse ParseSpec TreeFacts Auto ParseProofs ParseTerm ParseCycle ParseComplete Report ReportSpec ReportProofs ReportExact ViableSpec.

Section Lr1.
  Variables (g : grammar) (start : str).
  Hypothesis W : wf_grammar g start.
  Hypothesis He : eps_free g.
  Hypothesis Heof : eof_free g.
  Let F := F_std g.

  (** The LR(1) state reached along [u]; empty when there is none. *)
  Definition lr_at (u : list sym) : lrset := fold_left (fun I x => clo g F (move g I x)) u (clo g F init_set).

  Lemma lr_at_snoc u x : lr_at (u ++ [x]) = clo g F (move g (lr_at u) x).
  Proof. unfold lr_at. rewrite fold_left_app. reflexivity. Qed.
  Lemma clo_some K p d k : clo g F K p d k -> exists p d k, K p d k.
  Proof. induction 1; eauto. Qed.
  Lemma lr_at_state u : (exists p d k, lr_at u p d k) -> lr_state g F (lr_at u).
  Proof.
    induction u as [|x u IH] using rev_ind; [constructor|]. rewrite lr_at_snoc. intros (p & d & k & H).
    apply clo_some in H. apply lr_goto; auto. apply IH. destruct H as (q & e & l & d' & _ & H & _). eauto.
  Qed.
  Lemma state_lr_at I : lr_state g F I -> exists u, I = lr_at u /\ exists p d k, I p d k.
  Proof.
    induction 1 as [|I x H (u & -> & _) (p & d & k & Hm)].
    - exists []. split; auto. exists 0, 0, 0. apply clo_base. repeat split.
    - exists (u ++ [x]). rewrite lr_at_snoc. split; auto. exists p, d, k. apply clo_base, Hm.
  Qed.

  (** Any derivation to terminals can be done rightmost first, in any context. *)
  Lemma rd_forest u ts : Forall (fun tr => forall x a w, tree_ok g tr -> root g tr = Some x -> terminals w ->
      rderives g u (a ++ x :: w) -> rderives g u (a ++ yield tr ++ w)) ts ->
    forall l a w, Forall (tree_ok g) ts -> map (root g) ts = map Some l -> terminals w ->
    rderives g u (a ++ l ++ w) -> rderives g u (a ++ flat_map yield ts ++ w).
  Proof.
    induction 1 as [|tr ts H _ IH]; intros [|x l] a w Ho E Hw Hr; cbn [map] in E; try discriminate; [exact Hr|].
    inversion Ho as [|? ? Ho1 Ho2]; subst. injection E as E1 E2. cbn [flat_map]. rewrite <- app_assoc.
    apply (H x); auto.
    - apply Forall_app. split; auto. apply (forest_terminals g), Ho2.
    - change (x :: flat_map yield ts ++ w) with ([x] ++ (flat_map yield ts ++ w)). rewrite app_assoc. apply (IH l); auto.
      rewrite <- app_assoc. exact Hr.
  Qed.
  Lemma rd_tree u tr : forall x a w, tree_ok g tr -> root g tr = Some x -> terminals w ->
      rderives g u (a ++ x :: w) -> rderives g u (a ++ yield tr ++ w).
  Proof.
    induction tr as [y|p ts IH] using tree_ind'; intros x a w Ho E Hw Hr.
    - injection E as ->. exact Hr.
    - apply tree_ok_node in Ho as (pr & Hp & Hts & Hm). cbn [root] in E. rewrite Hp in E. injection E as <-. cbn [yield].
      apply (rd_forest u ts IH (p_syms pr)); auto. eapply rd_step; eauto. exists pr. split; [eapply nth_error_In, Hp|auto].
  Qed.
  Lemma rd_derives u l m a w : derives g l m -> terminals m -> terminals w -> rderives g u (a ++ l ++ w) -> rderives g u (a ++ m ++ w).
  Proof.
    intros Hd Hm Hw Hr. destruct (derives_forest g _ _ Hd Hm) as (ts & Ho & E & <-). eapply rd_forest; eauto.
    apply Forall_forall. intros tr _. apply rd_tree.
  Qed.

  Lemma rderives_derives u v : rderives g u v -> derives g u v.
  Proof.
    induction 1 as [|a A b w _ IH Hr _]; [constructor|]. eapply derives_trans; [exact IH|].
    apply (derives_ctx g a [SNon A] b w), derives_rule, Hr.
  Qed.

  Lemma sym_at_split p d x : sym_at g p d x -> exists pr, nth_error (g_prods g) p = Some pr /\
    p_syms pr = firstn d (p_syms pr) ++ x :: rest g p (S d) /\ firstn (S d) (p_syms pr) = firstn d (p_syms pr) ++ [x] /\ S d <= length (p_syms pr).
  Proof.
    intros H. pose proof (rest_cons g _ _ _ H) as E. destruct H as (pr & Hp & Hx). exists pr. split; auto.
    assert (E1 : p_syms pr = firstn d (p_syms pr) ++ x :: rest g p (S d)).
    { rewrite <- E. unfold rest. rewrite Hp. symmetry. apply firstn_skipn. }
    assert (Hl : S d <= length (p_syms pr)) by (apply nth_error_lt in Hx; lia). split; auto. split; auto.
    clear -Hx. revert d Hx. induction (p_syms pr) as [|y l IH]; intros [|d] Hx; try discriminate.
    - injection Hx as ->. reflexivity.
    - cbn [firstn app]. f_equal. apply IH, Hx.
  Qed.

  Lemma valid_move u p d k x : valid g start u p d k -> sym_at g p d x -> valid g start (u ++ [x]) p (S d) k.
  Proof.
    intros (pr & a & w & Hp & Hd & -> & H) Hx. destruct (sym_at_split _ _ _ Hx) as (pr' & Hp' & _ & E & Hl).
    rewrite Hp in Hp'. injection Hp' as <-. exists pr, a, w. rewrite E, app_assoc. auto.
  Qed.

  (** The whole body in place. *)
  Lemma valid_form u p d k x : valid g start u p d k -> sym_at g p d x ->
    exists w, rderives g [SNon start] (u ++ x :: rest g p (S d) ++ w) /\ terminals w /\ next_token g w k.
  Proof using W.
    intros (pr & a & w & Hp & Hd & -> & H & Hw & Hk) Hx. destruct (sym_at_split _ _ _ Hx) as (pr' & Hp' & E & _ & _).
    rewrite Hp in Hp'. injection Hp' as <-. exists w. split; auto. destruct H as [(-> & -> & ->)|H].
    - rewrite app_nil_r. cbn [app]. rewrite <- E. rewrite (wg_prod0 _ _ W) in Hp. injection Hp as <-. apply rd_refl.
    - assert (H1 : rderives g [SNon start] (a ++ p_syms pr ++ w)).
      { eapply rd_step; eauto. exists pr. split; [eapply nth_error_In, Hp|auto]. }
      rewrite E in H1. rewrite <- !app_assoc in *. exact H1.
  Qed.

  Lemma next_tok w k : terminals w -> next_token g w k -> exists a, nth_error (g_tokens g) k = Some a /\ hd SEof w = a /\ terminal a.
  Proof using W.
    intros Hw H. destruct w as [|x w]; cbn in *.
    - subst k. exists SEof. split; [apply (token_eof g start W)|]. split; auto. intros n. discriminate.
    - exists x. split; [apply H|]. split; auto. inversion Hw; auto.
  Qed.

  Hypothesis Hprod : all_productive g.

  Lemma valid_rule u p d k a q pq b k' : valid g start u p d k -> sym_at g p d (SNon (p_name pq)) -> nth_error (g_prods g) q = Some pq ->
    nth_error (g_tokens g) k = Some a -> F (rest g p (S d) ++ [a]) b -> tok g k' b -> valid g start u q 0 k'.
  Proof using W He Heof Hprod.
    intros Hv Hs Hq Ha [Hb (z & HF)] Hk'. destruct (valid_form _ _ _ _ _ Hv Hs) as (w & Hr & Hw & Hk).
    destruct (next_tok w k Hw Hk) as (a' & Ha' & Ehd & Hta). rewrite Ha in Ha'. injection Ha' as <-.
    destruct (derives_split g _ _ HF _ _ eq_refl) as (m1 & m2 & E & H1 & H2).
    assert (m2 = [a]) as ->. { eapply derives_terminals_refl; [exact H2|]. constructor; [exact Hta|constructor]. }
    destruct m1 as [|y m1].
    - destruct (rest g p (S d)) as [|y l] eqn:Er; [|exfalso; eapply (derives_nonempty g _ _ He H1); [discriminate|reflexivity]].
      injection E as <- _. exists pq, u, w. cbn [firstn]. rewrite app_nil_r. split; auto. split; [lia|]. split; auto. split; [right; exact Hr|]. split; auto.
      destruct w as [|x w]; cbn in *.
      + subst b. pose proof (token_eof g start W) as E0. unfold get_token in E0. eapply tok_unique; [exact Hk'|]. split; auto. intros j Hj. lia.
      + subst x. exact Hk'.
    - injection E as <- _. pose proof (derives_used g _ _ H1 (rest_used g p (S d))) as Hu. inversion Hu as [|? ? Hub Hum]; subst.
      destruct (productive_all g Hprod m1 Hum) as (m & Hm & _ & Hdm).
      assert (Hdr : derives g (rest g p (S d)) (b :: m)).
      { eapply derives_trans; [exact H1|]. apply (derives_app g [b] [b] m1 m); auto. constructor. }
      assert (Hbm : terminals (b :: m)) by (constructor; auto).
      assert (Hbw : terminals ((b :: m) ++ w)) by (apply Forall_app; auto).
      exists pq, u, ((b :: m) ++ w). cbn [firstn]. rewrite app_nil_r. split; auto. split; [lia|]. split; auto. split; [right|split; [exact Hbw|exact Hk']].
      change (u ++ SNon (p_name pq) :: (b :: m) ++ w) with (u ++ [SNon (p_name pq)] ++ (b :: m) ++ w). rewrite app_assoc.
      apply (rd_derives _ _ _ _ _ Hdr Hbm Hw). rewrite <- app_assoc. exact Hr.
  Qed.

  Lemma valid_clo u (K : lrset) : (forall p d k, K p d k -> valid g start u p d k) -> forall p d k, clo g F K p d k -> valid g start u p d k.
  Proof using W He Heof Hprod. intros HK p d k. induction 1 as [p d k H|p d k a q pq b k' Hc IH Hs Hq Ha HF Hb]; auto. eapply valid_rule; eauto. Qed.

  Lemma lr_at_valid u : forall p d k, lr_at u p d k -> valid g start u p d k.
  Proof using W He Heof Hprod.
    induction u as [|x u IH] using rev_ind.
    - apply valid_clo. intros p d k (-> & -> & ->). exists (Production (aug_name start) [SNon start] None None), [], [].
      split; [apply (wg_prod0 _ _ W)|]. split; [cbn; lia|]. split; auto. split; auto. split; [constructor|reflexivity].
    - rewrite lr_at_snoc. apply valid_clo. intros p d k (d' & -> & H & Hx). apply valid_move; auto.
  Qed.

  (** Conversely, symbol by symbol of a rightmost derivation. *)
  Lemma lr_at_closed u p d k a q pq b k' : lr_at u p d k -> sym_at g p d (SNon (p_name pq)) -> nth_error (g_prods g) q = Some pq ->
    nth_error (g_tokens g) k = Some a -> F (rest g p (S d) ++ [a]) b -> tok g k' b -> lr_at u q 0 k'.
  Proof.
    intros H Hs Hq Ha HF Hb. destruct u as [|x u] using rev_ind; [|clear IHu; rewrite lr_at_snoc in *]; eapply clo_rule; eauto.
  Qed.
  Lemma lr_at_walk p pr k : nth_error (g_prods g) p = Some pr -> forall c e u d, firstn d (p_syms pr) ++ c ++ e = p_syms pr -> d <= length (p_syms pr) ->
    lr_at u p d k -> lr_at (u ++ c) p (d + length c) k.
  Proof.
    intros Hp. induction c as [|x c IH]; intros e u d E Hd H; [rewrite app_nil_r, Nat.add_0_r; exact H|].
    assert (Hx : sym_at g p d x).
    { exists pr. split; auto. rewrite <- E. rewrite nth_error_app2; rewrite firstn_length, Nat.min_l; try lia. rewrite Nat.sub_diag. reflexivity. }
    destruct (sym_at_split _ _ _ Hx) as (pr' & Hp' & _ & E' & Hl). rewrite Hp in Hp'. injection Hp' as <-.
    cbn [length]. rewrite <- Nat.add_succ_comm. change (x :: c) with ([x] ++ c). rewrite app_assoc. apply (IH e); auto.
    - rewrite E', <- app_assoc. exact E.
    - rewrite lr_at_snoc. apply clo_base. exists d. auto.
  Qed.

  Lemma F_first e l b : Forall (used g) e -> F (e ++ l) b -> terminals l -> l <> [] -> F (e ++ [hd SEof l]) b.
  Proof using He.
    intros He' [Hb (z & H)] Hl Hne. split; auto. destruct (derives_split g _ _ H _ _ eq_refl) as (m1 & m2 & E & H1 & H2).
    apply derives_terminals_refl in H2; auto. subst m2. destruct m1 as [|y m1].
    - destruct e as [|y e]; [|exfalso; eapply (derives_nonempty g _ _ He H1); [discriminate|reflexivity]].
      cbn [app] in E. destruct l as [|x l]; [congruence|]. injection E as <- _. exists []. constructor.
    - injection E as <- _. exists (m1 ++ [hd SEof l]). apply (derives_app g e (b :: m1)); auto. constructor.
  Qed.

  Lemma rd_lr_at form : rderives g [SNon start] form -> Forall (used g) form /\ forall a A v, form = a ++ SNon A :: v ->
    forall q pq b k, nth_error (g_prods g) q = Some pq -> p_name pq = A -> F (v ++ [SEof]) b -> tok g k b -> lr_at a q 0 k.
  Proof using W He Heof.
    induction 1 as [|a0 B body w Hr [Hu IH] (pr & Hin & Hn & Hbody) Hw].
    - split.
      + constructor; [|constructor]. exists (Production (aug_name start) [SNon start] None None).
        split; [eapply nth_error_In, (wg_prod0 _ _ W)|left; reflexivity].
      + intros a A v E q pq b k Hq Hn HF Hk. destruct a as [|y a]; [|injection E as _ E; destruct a; discriminate]. injection E as <- <-.
        apply (lr_at_closed [] 0 0 0 SEof q pq b k); auto.
        * apply clo_base. repeat split.
        * rewrite Hn. exists (Production (aug_name start) [SNon start] None None). split; [apply (wg_prod0 _ _ W)|reflexivity].
        * apply (token_eof g start W).
        * unfold rest. rewrite (wg_prod0 _ _ W). exact HF.
    - assert (Hub : Forall (used g) body).
      { apply Forall_forall. intros x Hx. exists pr. subst body. auto. }
      assert (Hua : Forall (used g) a0 /\ Forall (used g) w).
      { apply Forall_app in Hu as [H1 H2]. inversion H2; auto. }
      split; [apply Forall_app; split; [tauto|apply Forall_app; split; tauto]|].
      intros a A v E q pq b k Hq Hnq HF Hk. symmetry in E. apply app_eq_mid in E as [(c & -> & ->)|(a' & E & ->)].
      + (* the symbol is to the left of the rewritten one *)
        apply (IH a A (c ++ SNon B :: w) ltac:(rewrite <- app_assoc; reflexivity) q pq b k); auto.
        destruct HF as [Hb (z & HF)]. split; auto. exists z. eapply derives_trans; [|exact HF].
        rewrite <- !app_assoc. apply (derives_ctx g c [SNon B] body (w ++ [SEof])). apply derives_rule. exists pr. auto.
      + symmetry in E. apply app_eq_mid in E as [(e & E & ->)|(a'' & E & ->)].
        * (* it is in the new body *)
          destruct (In_nth_error _ _ Hin) as [p Hp].
          assert (Hk0 : exists k0, tok g k0 (hd SEof (w ++ [SEof]))).
          { destruct w as [|x w]; cbn.
            - exists 0. split; [apply (token_eof g start W)|intros j Hj; lia].
            - destruct Hua as [_ Hua]. inversion Hua as [|? ? Hx _]; subst. destruct (used_token g start W x Hx) as [k0 Hk0].
              exists k0. eapply nth_tok; eauto. }
          destruct Hk0 as [k0 Hk0].
          assert (Hte : terminals (w ++ [SEof])) by (apply Forall_app; split; auto; constructor; [intros n; discriminate|constructor]).
          assert (H0 : lr_at a0 p 0 k0).
          { apply (IH a0 B w eq_refl p pr (hd SEof (w ++ [SEof])) k0); auto. destruct w as [|x w]; cbn.
            - split; [intros n; discriminate|exists []; constructor].
            - split; [inversion Hw; auto|exists (w ++ [SEof]); constructor]. }
          assert (Es : p_syms pr = a' ++ SNon A :: e) by congruence.
          pose proof (lr_at_walk p pr k0 Hp a' (SNon A :: e) a0 0 ltac:(rewrite Es; reflexivity) ltac:(lia) H0) as H1. cbn [Nat.add] in H1.
          assert (Hx : sym_at g p (length a') (SNon (p_name pq))).
          { exists pr. split; auto. rewrite Es, Hnq. apply nth_error_app_mid. }
          assert (Er : rest g p (S (length a')) = e).
          { pose proof (rest_cons g _ _ _ Hx) as Erc. unfold rest at 1 in Erc. rewrite Hp, Es in Erc. rewrite skipn_app, skipn_all, Nat.sub_diag in Erc.
            cbn in Erc. injection Erc as _ Erc. auto. }
          eapply lr_at_closed; [exact H1|exact Hx|exact Hq|apply Hk0| |exact Hk]. rewrite Er.
          apply F_first; auto.
          -- apply Forall_forall. intros x Hxe. rewrite Forall_forall in Hub. apply Hub. rewrite E. apply in_or_app. right. right. exact Hxe.
          -- rewrite <- app_assoc in HF. exact HF.
          -- destruct w; discriminate.
        * (* it cannot be to the right *)
          exfalso. unfold terminals in Hw. rewrite E in Hw. apply Forall_app in Hw as [_ Hw]. inversion Hw as [|? ? C _]. eapply C. reflexivity.
  Qed.

  Lemma valid_lr_at u p d k : valid g start u p d k -> lr_at u p d k.
  Proof using W He Heof.
    intros (pr & a & w & Hp & Hd & -> & H & Hw & Hk).
    assert (G : lr_at a p 0 k).
    { destruct H as [(-> & -> & ->)|H].
      - cbn in Hk. subst k. apply clo_base. repeat split.
      - destruct (next_tok w k Hw Hk) as (b & Hb & Eb & Hbt).
        apply (proj2 (rd_lr_at _ H) a (p_name pr) w eq_refl p pr b k); auto.
        + split; auto. destruct w as [|x w]; cbn in *; subst; eexists; constructor.
        + destruct w as [|x w]; cbn in *; subst; auto. split; auto. intros j Hj. lia. }
    pose proof (lr_at_walk p pr k Hp (firstn d (p_syms pr)) (skipn d (p_syms pr)) a 0 (firstn_skipn _ _) ltac:(lia) G) as H1.
    rewrite firstn_length, Nat.min_l in H1 by exact Hd. exact H1.
  Qed.

  Lemma lr_at_iff u p d k : lr_at u p d k <-> valid g start u p d k.
  Proof using W He Heof Hprod. split; [apply lr_at_valid|apply valid_lr_at]. Qed.
End Lr1.
