(** How building the item sets fails: the panic, and where it comes from. *)
From Verif Require Import Base Grammar GrammarSpec GrammarProofs First FirstProofs Item ItemSpec ItemProofs ItemPlain.

Lemma bind_panic {A B} (r : res A) (f : A -> res B) pn : bind r f = Panic pn ->
  r = Panic pn \/ exists a, r = Ok a /\ f a = Panic pn.
Proof. destruct r; simpl; eauto. intros H. left. congruence. discriminate. Qed.
Lemma mapM_panic {A B} (f : A -> res B) l pn : mapM f l = Panic pn -> exists a, In a l /\ f a = Panic pn.
Proof.
  induction l as [|a l IH]; simpl; [discriminate|]. intros H. apply bind_panic in H as [H|(b & _ & H)]; eauto.
  apply bind_panic in H as [H|(r & _ & H)]; [|discriminate]. destruct (IH H) as (x & Hx & E). eauto.
Qed.
Lemma foldM_panic {A S} (f : S -> A -> res S) l : forall s pn, foldM f l s = Panic pn -> exists s' a, f s' a = Panic pn.
Proof.
  induction l as [|a l IH]; intros s pn H; simpl in H; [discriminate|].
  apply bind_panic in H as [H|(s1 & _ & H)]; eauto.
Qed.

(** *** FIRST panics only in the lookup of a name. *)

Lemma first_sym_panic f g : forall s x pn, first_sym f g s x = Panic pn -> pn = PUnwrapNone.
Proof.
  induction f as [|f IH]; intros s x pn H; simpl in H; destruct (as_non x) as [n|]; try discriminate.
  apply bind_panic in H as [H|(ps & _ & H)].
  { unfold production_iter in H. destruct (map_get _ _); congruence. }
  revert s H. generalize false. induction ps as [|[i p] ps IHps]; intros a s H; simpl in H; [discriminate|].
  apply bind_panic in H as [H|([s' a'] & _ & H)]; [|exact (IHps _ _ H)].
  clear IHps. revert s a H. induction (p_syms p) as [|y l IHl]; intros s a H; simpl in H; [discriminate|].
  apply bind_panic in H as [H|([s' []] & _ & H)]; [exact (IH _ _ _ H)|exact (IHl _ _ H)|discriminate].
Qed.
Lemma first_panic g l pn : first g l = Panic pn -> pn = PUnwrapNone.
Proof.
  unfold first, first_with. intros H. apply bind_panic in H as [H|([s b] & _ & H)]; [|discriminate].
  revert H. generalize (@nil sym) true. induction l as [|x l IH]; intros s b H; simpl in H; [discriminate|].
  apply bind_panic in H as [H|([s' b'] & _ & H)]; [exact (first_sym_panic (first_fuel g) g s x pn H)|].
  destruct (set_mem SEps s'); [exact (IH _ _ H)|discriminate].
Qed.

(** *** So does everything built on it. *)

Lemma dot_token_panic g it pn : dot_token g it = Panic pn -> pn = PUnwrapNone.
Proof. unfold dot_token. destruct (get_production _ _); congruence. Qed.
Lemma additions_panic_kind g s pn : additions g s = Panic pn -> pn = PUnwrapNone.
Proof.
  unfold additions. intros H. apply bind_panic in H as [H|(l & _ & H)]; [|discriminate].
  apply mapM_panic in H as ([it las] & _ & H). unfold additions_item in H.
  apply bind_panic in H as [H|(o & _ & H)].
  { unfold dot_production_name in H. apply bind_panic in H as [H|(o & _ & H)]; [|discriminate]. eapply dot_token_panic; eauto. }
  destruct o as [n|]; [|discriminate]. apply bind_panic in H as [H|(ps & _ & H)].
  { unfold production_iter in H. destruct (map_get _ _); congruence. }
  apply bind_panic in H as [H|(l & _ & H)]; [|discriminate].
  apply mapM_panic in H as (ip & _ & H). apply bind_panic in H as [H|(l & _ & H)]; [|discriminate].
  apply mapM_panic in H as (k & _ & H). unfold additions_la in H. destruct (get_token g k) as [a|]; [|congruence].
  apply bind_panic in H as [H|(ts & _ & H)]; [exact (first_panic _ _ _ H)|].
  apply mapM_panic in H as (y & _ & H). destruct (get_token_idx g y); congruence.
Qed.
Lemma run_panic {S A} (step : S -> S + res A) bits s pn :
  (forall t, step t = inr (Panic pn) -> pn = PUnwrapNone) -> run step bits s = inr (Panic pn) -> pn = PUnwrapNone.
Proof.
  intros Hs H. pose proof (run_inv step (fun _ => True) (fun r => r = Panic pn -> pn = PUnwrapNone) bits s) as HR.
  rewrite H in HR. apply HR; auto. intros t r _ E ->. exact (Hs _ E).
Qed.
Lemma closure_panic_kind g s pn : closure g s = Panic pn -> pn = PUnwrapNone.
Proof.
  unfold closure. destruct (run _ _ _) as [t|r] eqn:E; [discriminate|]. intros ->.
  eapply run_panic; [|exact E]. intros t Ht. unfold closure_step in Ht.
  destruct (additions g t) as [l|q|] eqn:Ea; [|injection Ht as ->; exact (additions_panic_kind _ _ _ Ea)|discriminate].
  destruct (fold_left _ _ _) as [s2 []]; discriminate.
Qed.
Lemma goto_panic_kind g s x pn : goto g s x = Panic pn -> pn = PUnwrapNone.
Proof.
  unfold goto. intros H. apply bind_panic in H as [H|(j & _ & H)]; [|exact (closure_panic_kind _ _ _ H)].
  apply foldM_panic in H as (j & [it las] & H). unfold goto_kernel_step in H.
  apply bind_panic in H as [H|(o & _ & H)]; [exact (dot_token_panic _ _ _ H)|].
  destruct o as [y|]; [|discriminate]. destruct (eqb y x); discriminate.
Qed.
Lemma items_panic_kind g pn : items g = Panic pn -> pn = PUnwrapNone.
Proof.
  unfold items. intros H. apply bind_panic in H as [H|(i0 & _ & H)]; [exact (closure_panic_kind _ _ _ H)|].
  destruct (run _ _ _) as [t|r] eqn:E; [discriminate|]. subst r.
  eapply run_panic; [|exact E]. intros C HC. unfold items_step in HC.
  destruct (items_new g C) as [[|t l]|q|] eqn:En; try discriminate. injection HC as ->.
  unfold items_new in En. apply bind_panic in En as [En|(l & _ & En)]; [|discriminate].
  apply mapM_panic in En as (s & _ & En). unfold items_new_of in En.
  apply bind_panic in En as [En|(l & _ & En)]; [|discriminate].
  apply mapM_panic in En as (x & _ & En). apply bind_panic in En as [En|(j & _ & En)]; [exact (goto_panic_kind _ _ _ _ En)|discriminate].
Qed.

(** *** Where the panic comes from *)

Section Stuck.
  Variables (g : grammar) (start : str).
  Hypothesis W : wf_grammar g start.

  (** An item whose additions cannot be computed for want of a lookup. *)
  Definition stuck (p d k : nat) : Prop := (forall pr, nth_error (g_prods g) p <> Some pr) \/
    exists B, sym_at g p d (SNon B) /\
      (~ has_rule g B \/ forall a, nth_error (g_tokens g) k = Some a ->
         (exists pn, first g (rest g p (S d) ++ [a]) = Panic pn) \/
         exists s y, first g (rest g p (S d) ++ [a]) = Ok s /\ In y s /\ ~ In y (g_tokens g)).

  Lemma additions_panic s pn : wf_set s -> additions g s = Panic pn -> exists p d k, has s p d k /\ stuck p d k.
  Proof using W.
    intros Hs H. unfold additions in H. apply bind_panic in H as [H|(l & _ & H)]; [|discriminate].
    apply mapM_panic in H as ([[p d] las] & He & H).
    assert (Hla : exists k, In k las).
    { destruct (proj2 Hs _ _ He) as [_ Hl]. destruct las as [|k las]; [destruct (Hl eq_refl)|exists k; left; reflexivity]. }
    unfold additions_item in H. apply bind_panic in H as [H|(o & Eo & H)].
    { unfold dot_production_name in H. apply bind_panic in H as [H|(o & _ & H)]; [|discriminate].
      unfold dot_token, get_production in H. cbn [fst] in H. destruct Hla as [k Hk]. exists p, d, k. split; [exists las; auto|].
      left. intros pr E. rewrite E in H. discriminate. }
    apply dot_name in Eo as (pr & Hp & Eo). destruct o as [n|]; [|discriminate].
    assert (Hn : sym_at g p d (SNon n)).
    { exists pr. split; auto. destruct (nth_error (p_syms pr) d) as [[]|]; try discriminate. injection Eo as <-. reflexivity. }
    apply bind_panic in H as [H|(ps & Eps & H)].
    { destruct Hla as [k Hk]. exists p, d, k. split; [exists las; auto|]. right. exists n. split; auto. left.
      intros C. apply (production_iter_defined _ _ W) in C as [ps E]. congruence. }
    apply bind_panic in H as [H|(l & _ & H)]; [|discriminate].
    apply mapM_panic in H as ([q pq] & Hq & H). apply bind_panic in H as [H|(l & _ & H)]; [|discriminate].
    apply mapM_panic in H as (k & Hk & H). exists p, d, k. split; [exists las; auto|]. right. exists n. split; auto. right.
    intros a Ha. unfold additions_la, get_token in H. rewrite Ha, item_iter_rest in H.
    apply bind_panic in H as [H|(ts & Ets & H)]; [eauto|]. right.
    apply mapM_panic in H as (y & Hy & H). exists ts, y. split; auto. split; auto.
    intros C. apply get_token_idx_In in C as [j Ej]. rewrite Ej in H. discriminate.
  Qed.

  Lemma closure_panic s pn : wf_set s -> closure g s = Panic pn -> exists p d k, clo g (F_code g) (has s) p d k /\ stuck p d k.
  Proof using W.
    intros Hs. assert (HI : Inv g (has s) s) by (split; auto; split; auto; intros p d k H; apply clo_base, H).
    destruct (closure_loop g start W (has s) s HI) as [r Er]. unfold closure. rewrite Er.
    pose proof (run_inv (closure_step g) (Inv g (has s)) (fun r => r = Panic pn ->
      exists p d k, clo g (F_code g) (has s) p d k /\ stuck p d k) (closure_bits g) s) as H.
    rewrite Er in H. apply H; auto.
    - intros t t' Ht E. apply (closure_step_inl g start W (has s) _ _ Ht E).
    - intros t r' (Ht & _ & Hc) E ->. unfold closure_step in E.
      destruct (additions g t) as [adds|q|] eqn:Ea; [| |discriminate].
      + destruct (fold_left _ _ _) as [s2 []]; discriminate.
      + destruct (additions_panic _ _ Ht Ea) as (p & d & k & H1 & H2). exists p, d, k. auto.
  Qed.

  Lemma goto_panic s x pn : wf_set s -> (forall p d k, has s p d k -> exists pr, nth_error (g_prods g) p = Some pr) ->
    goto g s x = Panic pn -> exists p d k, clo g (F_code g) (move g (has s) x) p d k /\ stuck p d k.
  Proof using W.
    intros Hs Hp. destruct (goto_kernel g s x Hs Hp) as (j & Ej & Hj & Hm). unfold goto. rewrite Ej. cbn [bind].
    intros H. destruct (closure_panic _ _ Hj H) as (p & d & k & H1 & H2).
    exists p, d, k. split; auto. apply (clo_ext g (F_code g) _ _ Hm). exact H1.
  Qed.

  Lemma items_panic pn : items g = Panic pn -> exists I p d k, lr g I /\ I p d k /\ stuck p d k.
  Proof using W.
    unfold items. intros H. apply bind_panic in H as [H|(i0 & E0 & H)].
    { destruct (closure_panic _ _ initial_wf H) as (p & d & k & H1 & H2).
      exists (clo g (F_code g) init_set), p, d, k. split; [constructor|]. split; auto.
      apply (clo_ext g (F_code g) _ _ initial_rep). exact H1. }
    pose proof (clo_ext g (F_code g) _ _ initial_rep) as He.
    destruct (closure_spec g start W initial initial_wf) as [(i0' & E0' & Hw & Hr & Hd)|[H1 _]]; [|destruct (H1 _ E0)].
    rewrite E0 in E0'. injection E0' as <-.
    assert (HC : CInv g i0 [i0]).
    { split; [eauto|]. split; [constructor; [intros []|constructor]|].
      intros s [<-|[]]. split; auto. exists (clo g (F_code g) init_set). split; [constructor|].
      intros p d k. rewrite (Hr p d k). apply He. }
    destruct (run (items_step g) _ [i0]) as [t|r] eqn:Er; [discriminate|]. subst r.
    pose proof (run_inv (items_step g) (CInv g i0) (fun r => r = Panic pn -> exists I p d k, lr g I /\ I p d k /\ stuck p d k)
       (S (pairs_count g)) [i0]) as HR.
    rewrite Er in HR. apply HR; auto.
    - intros C C' HI E. apply (items_step_inl g start W _ _ _ HI E).
    - intros C r' ((l & El) & Hn & Hs) E ->. unfold items_step in E.
      destruct (items_new g C) as [[|t temp]|q|] eqn:En; try discriminate.
      unfold items_new in En. apply bind_panic in En as [En|(x & _ & En)]; [|discriminate].
      apply mapM_panic in En as (s & HsC & En). unfold items_new_of in En.
      apply bind_panic in En as [En|(x & _ & En)]; [|discriminate].
      apply mapM_panic in En as (x & Hx & En). apply bind_panic in En as [En|(j & _ & En)]; [|discriminate].
      destruct (Hs s HsC) as (Hws & I & HI & HIr).
      assert (Hpr : forall p d k, has s p d k -> exists pr, nth_error (g_prods g) p = Some pr).
      { intros p d k Hk. apply HIr in Hk. destruct (lr_valid g start W _ HI _ _ _ Hk) as (pr & Hp & _). eauto. }
      destruct (goto_panic s x _ Hws Hpr En) as (p & d & k & H1 & H2).
      exists (clo g (F_code g) (move g I x)), p, d, k.
      pose proof (move_ext g _ _ x HIr) as Hm.
      split; [|split; [apply (clo_ext g (F_code g) _ _ Hm); exact H1|exact H2]].
      apply lr_goto; auto.
      assert (G : forall p d k, clo g (F_code g) (move g (has s) x) p d k -> exists p d k, move g (has s) x p d k).
      { clear. intros p d k. induction 1; eauto. }
      destruct (G _ _ _ H1) as (p' & d' & k' & Hm'). exists p', d', k'. apply Hm, Hm'.
  Qed.
End Stuck.

(** In an epsilon-free grammar: from a name without rules in a reachable production. *)
Section Plain.
  Variables (g : grammar) (start : str).
  Hypothesis W : wf_grammar g start.
  Hypothesis He : eps_free g.

  Lemma lms_reachable x y : lms g x y -> forall p pr, reachable g p -> nth_error (g_prods g) p = Some pr -> In x (p_syms pr) ->
    exists p' pr', reachable g p' /\ nth_error (g_prods g) p' = Some pr' /\ In y (p_syms pr').
  Proof.
    induction 1 as [x|A z b y (q & Hq & En & Eb) _ IH]; intros p pr Hr Hp Hx; [eauto|].
    apply In_nth_error in Hq as [i Hi]. subst A. apply (IH i q).
    - eapply reach_next; eauto.
    - exact Hi.
    - rewrite Eb. left; reflexivity.
  Qed.

  Lemma items_panic_undefined pn : items g = Panic pn -> pn = PUnwrapNone /\
    exists p pr B, reachable g p /\ nth_error (g_prods g) p = Some pr /\ In (SNon B) (p_syms pr) /\ ~ has_rule g B.
  Proof using W He.
    intros H. split; [exact (items_panic_kind _ _ H)|].
    destruct (items_panic g start W pn H) as (I & p & d & k & HI & Hk & Hst).
    destruct (lr_valid _ _ W _ HI _ _ _ Hk) as (pr & Hp & _).
    pose proof (lr_reachable g _ HI _ _ _ Hk) as Hr.
    destruct Hst as [C|(B & (pr' & Hp' & Hd) & Hst)]; [destruct (C _ Hp)|].
    rewrite Hp in Hp'. injection Hp' as <-.
    destruct Hst as [Hn|Hst]; [exists p, pr, B; eauto using nth_error_In|].
    destruct (lr_lookahead g start W He _ HI _ _ _ Hk) as (a & Ha & Hta). specialize (Hst a Ha).
    assert (Hae : a <> SEps) by (intros ->; exact (tokens_no_eps g start W He _ Ha)).
    destruct (nth_error (p_syms pr) (S d)) as [x|] eqn:Ex.
    - rewrite (rest_cons _ _ _ _ _ Hp Ex) in Hst.
      assert (Hxe : x <> SEps).
      { intros ->. destruct (He pr (nth_error_In _ _ Hp)) as [_ C]. apply C. eauto using nth_error_In. }
      destruct Hst as [[q Hf]|(s & y & Hf & Hy & Hny)].
      + cbn [app] in Hf. rewrite (first_cons g start W He x _ Hxe) in Hf. apply bind_panic in Hf as [Hf|([s b] & _ & Hf)]; [|discriminate].
        assert (Ho : out (first_fuel g) g x = Panic q) by (rewrite <- (kind_first _ g [] x), Hf; reflexivity).
        destruct (out_panic g start W He _ _ _ Hxe Ho) as (n & Hl & Hn).
        destruct (lms_reachable _ _ Hl p pr Hr Hp (nth_error_In _ _ Ex)) as (p' & pr' & H1 & H2 & H3). exists p', pr', n. auto.
      + exfalso. apply Hny. cbn [app] in Hf. eapply (first_tokens g start W He); eauto.
        eapply (token_of_body _ _ W); eauto using nth_error_In.
    - rewrite (rest_nil _ _ _ _ Hp Ex) in Hst. cbn [app] in Hst. rewrite (first_terminal g start W He a Hta Hae) in Hst.
      destruct Hst as [[q C]|(s & y & C & Hy & Hny)]; [discriminate|]. injection C as <-. destruct Hy as [<-|[]].
      exfalso. eauto using nth_error_In.
  Qed.
End Plain.
