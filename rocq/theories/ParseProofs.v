(** The parser's stack invariant: soundness and the possible failures. *)
From Verif Require Import Base Grammar GrammarSpec GrammarProofs First Item ItemSpec ItemProofs Table Parse ParseSpec TreeFacts Auto.

Lemma firstn_snoc {A} (l : list A) n x : nth_error l n = Some x -> firstn (S n) l = firstn n l ++ [x].
Proof.
  revert n; induction l as [|a l IH]; intros [|n] H; simpl in *; try discriminate; [congruence|].
  f_equal. apply IH, H.
Qed.
Lemma nth_error_app_mid {A} (l : list A) x l' : nth_error (l ++ x :: l') (length l) = Some x.
Proof. rewrite nth_error_app2, Nat.sub_diag; auto. Qed.

Lemma in_firstn_in {A} n (l : list A) x : In x (firstn n l) -> In x l.
Proof. intros H. rewrite <- (firstn_skipn n l). apply in_or_app. auto. Qed.

Section Sound.
  Variables (g : grammar) (start : str).
  Hypothesis W : wf_grammar g start.
  Hypothesis Hst : g_start g = aug_name start.
  Variable t : tables.
  Hypothesis A : auto g t.

  (** The state stack and the trees it stands for, top first. *)
  Inductive stacked : list nat -> list tree -> Prop :=
  | stk_base : stacked [0] []
  | stk_push q q' s ts tr x : stacked (q :: s) ts -> trans g t q x q' -> tree_ok g tr -> root g tr = Some x ->
      stacked (q' :: q :: s) (tr :: ts).

  Lemma stacked_length s ts : stacked s ts -> length s = S (length ts).
  Proof. induction 1; simpl in *; lia. Qed.
  Lemma stacked_ok s ts : stacked s ts -> Forall (tree_ok g) ts.
  Proof. induction 1; constructor; auto. Qed.

  (** An item with the dot at [d] sees its first [d] symbols on the stack. *)
  Lemma back d : forall q s ts p k, stacked (q :: s) ts -> st t q p d k ->
    exists pr q' s' k', nth_error (g_prods g) p = Some pr /\ d <= length ts /\
      skipn d (q :: s) = q' :: s' /\ stacked (q' :: s') (skipn d ts) /\
      map (root g) (rev (firstn d ts)) = map Some (firstn d (p_syms pr)) /\ st t q' p 0 k'.
  Proof using A.
    induction d as [|d IH]; intros q s ts p k Hs H.
    - destruct (a_dom _ _ A _ _ _ _ H) as (pr & Hp & _). exists pr, q, s, k. simpl. repeat (split; auto). lia.
    - inversion Hs as [|q0 q1 s0 ts0 tr x H0 Ht Ho Hr]; subst.
      + apply (a_zero _ _ A) in H. discriminate.
      + destruct Ht as (_ & Hb & _). destruct (Hb p d k H) as ((pr0 & Hp0 & Hx) & k' & Hk').
        destruct (IH _ _ _ _ _ H0 Hk') as (pr & q' & s' & k1 & Hp & Hl & E & Hs' & Hm & Hk1).
        exists pr, q', s', k1. split; auto. split; [simpl; lia|]. split; [exact E|]. split; [exact Hs'|]. split; auto.
        rewrite Hp in Hp0. injection Hp0 as <-.
        change (firstn (S d) (tr :: ts0)) with (tr :: firstn d ts0). cbn [rev]. rewrite (firstn_snoc _ _ _ Hx), !map_app, Hm. cbn [map]. rewrite Hr. reflexivity.
  Qed.

  (** What one step can do. *)
  Inductive outcome (tokens : list nat) (c : pstate) (ts : list tree) : pstate + res (list nat) -> Prop :=
  | o_shift q s x j : ps_stack c = q :: s -> terminal x -> tok g (ps_a c) x ->
      (exists p d k', st t q p d k' /\ sym_at g p d x) -> trans g t q x j ->
      outcome tokens c ts (inl (PState (j :: q :: s) (S (ps_i c)) (snd (next_token tokens (ps_i c) (ps_a c))) (ps_trace c)))
  | o_reduce p pr q' s' j q s k' : ps_stack c = q :: s -> nth_error (g_prods g) p = Some pr ->
      st t q p (length (p_syms pr)) (ps_a c) -> ~ (ps_a c = 0 /\ p = 0) ->
      length (p_syms pr) <= length ts -> skipn (length (p_syms pr)) (q :: s) = q' :: s' ->
      stacked (q' :: s') (skipn (length (p_syms pr)) ts) ->
      map (root g) (rev (firstn (length (p_syms pr)) ts)) = map Some (p_syms pr) ->
      st t q' p 0 k' -> tbl_get (t_goto t) q' (p_name pr) = Some j -> trans g t q' (SNon (p_name pr)) j ->
      outcome tokens c ts (inl (PState (j :: q' :: s') (ps_i c) (ps_a c) (ps_trace c ++ [p])))
  | o_accept q s d : ps_stack c = q :: s -> ps_a c = 0 -> complete g 0 d -> st t q 0 d 0 ->
      outcome tokens c ts (inr (Ok (ps_trace c)))
  | o_invalid q s : ps_stack c = q :: s -> tbl_get (t_action t) q (ps_a c) = None ->
      outcome tokens c ts (inr (Panic PInvalidToken))
  | o_goto p pr q' k' q : st t q p (length (p_syms pr)) (ps_a c) ->
      nth_error (g_prods g) p = Some pr -> ~ (ps_a c = 0 /\ p = 0) ->
      st t q' p 0 k' -> tbl_get (t_goto t) q' (p_name pr) = None ->
      outcome tokens c ts (inr (Panic PGotoEmpty)).

  Lemma step_outcome tokens c ts : stacked (ps_stack c) ts -> outcome tokens c ts (parse_step g t tokens c).
  Proof using A.
    intros Hs. unfold parse_step. destruct (ps_stack c) as [|q s] eqn:Es; [inversion Hs|].
    destruct (tbl_get (t_action t) q (ps_a c)) as [[j|p|]|] eqn:Ea.
    - apply (a_shift _ _ A) in Ea as (x & H1 & H2 & H3 & H4). unfold next_token.
      apply (o_shift tokens c ts q s x j); auto.
    - apply (a_reduce _ _ A) in Ea as (Hne & d & (pr & Hp & ->) & Hk). unfold get_production. rewrite Hp.
      destruct (back _ _ _ _ _ _ Hs Hk) as (pr' & q' & s' & k' & Hp' & Hl & E & Hs' & Hm & Hk'). rewrite Hp in Hp'. injection Hp' as <-.
      pose proof (stacked_length _ _ Hs) as Hlen. rewrite firstn_all in Hm.
      destruct (Nat.ltb_spec (length (q :: s)) (length (p_syms pr))) as [Hlt|_]; [lia|]. rewrite E.
      destruct (tbl_get (t_goto t) q' (p_name pr)) as [j|] eqn:Eg.
      + eapply o_reduce; eauto. apply (a_goto _ _ A), Eg.
      + eapply o_goto; eauto.
    - apply (a_accept _ _ A) in Ea as (E & d & Hc & Hk). eapply o_accept; eauto.
    - eapply o_invalid; eauto.
  Qed.

  (** ** The invariant, whatever the tokens *)
  Definition inv0 (c : pstate) : Prop :=
    exists ts, stacked (ps_stack c) ts /\ ps_trace c = flat_map postorder (rev ts).

  Lemma node_ok p pr ts : nth_error (g_prods g) p = Some pr -> Forall (tree_ok g) ts ->
    map (root g) (rev (firstn (length (p_syms pr)) ts)) = map Some (p_syms pr) ->
    tree_ok g (Node p (rev (firstn (length (p_syms pr)) ts))).
  Proof.
    intros Hp Ho Hm. econstructor; eauto. apply Forall_rev. rewrite Forall_forall in *. intros x Hx. apply Ho. eapply in_firstn_in; eauto.
  Qed.
  Lemma reduce_flat {B} (f : tree -> list B) n (ts : list tree) :
    flat_map f (rev (skipn n ts)) ++ flat_map f (rev (firstn n ts)) = flat_map f (rev ts).
  Proof. rewrite <- flat_map_app, <- rev_app_distr, firstn_skipn. reflexivity. Qed.

  Lemma inv0_step tokens c c' : inv0 c -> parse_step g t tokens c = inl c' -> inv0 c'.
  Proof using A.
    intros (ts & Hs & Htr) E. pose proof (step_outcome tokens c ts Hs) as O. rewrite E in O. inversion O; subst.
    - match goal with H : ps_stack c = _ |- _ => rewrite H in Hs end. exists (Leaf x :: ts). cbn [ps_stack ps_trace]. split.
      + eapply stk_push; [exact Hs|eassumption|constructor; assumption|reflexivity].
      + simpl. rewrite flat_map_app, Htr. simpl. rewrite app_nil_r. reflexivity.
    - pose proof (node_ok p pr ts ltac:(assumption) (stacked_ok _ _ Hs) ltac:(assumption)) as Hn.
      exists (Node p (rev (firstn (length (p_syms pr)) ts)) :: skipn (length (p_syms pr)) ts). cbn [ps_stack ps_trace]. split.
      + econstructor; eauto. simpl. match goal with H : nth_error (g_prods g) p = _ |- _ => rewrite H end. reflexivity.
      + cbn [rev]. rewrite flat_map_app. simpl. rewrite app_nil_r, app_assoc, reduce_flat, Htr. reflexivity.
  Qed.
  Lemma inv0_init a : inv0 (parse_init a).
  Proof. exists []. split; [constructor|reflexivity]. Qed.

  (** The only failures. *)
  Lemma fails_only tokens p : tokens <> [] -> parse_impl g t tokens = Panic p -> p = PInvalidToken \/ p = PGotoEmpty.
  Proof using A.
    intros Hne. unfold parse_impl. destruct tokens as [|a tokens]; [congruence|].
    pose proof (run_inv (parse_step g t (a :: tokens)) inv0
      (fun r => forall p, r = Panic p -> p = PInvalidToken \/ p = PGotoEmpty) (parse_bits g (a :: tokens)) (parse_init a)) as HR.
    destruct (run _ _ _) as [c|r]; [discriminate|]. intros ->. eapply HR; [| |apply inv0_init|reflexivity].
    - intros s s' Hs E. eapply inv0_step; eauto.
    - intros s r (ts & Hs & _) E q ->. pose proof (step_outcome (a :: tokens) s ts Hs) as O. rewrite E in O.
      inversion O; auto.
  Qed.

  (** ** With the input consumed, for sequences ended by EOF *)
  Section Ended.
    Variables (tokens w : list nat).
    Hypothesis Hend : ended tokens w.
    Hypothesis Heof : eof_free g.

    Definition inv (c : pstate) (ts : list tree) : Prop :=
      stacked (ps_stack c) ts /\ ps_trace c = flat_map postorder (rev ts) /\
      ps_i c <= length w /\ nth_error tokens (ps_i c) = Some (ps_a c) /\
      symbols g (firstn (ps_i c) w) (flat_map yield (rev ts)).

    Lemma tok_not_eof k x p d : tok g k x -> sym_at g p d x -> k <> 0.
    Proof using W Heof.
      intros [Hk _] (pr & Hp & Hx) ->. destruct (wg_tokens _ _ W) as (l & El & _). rewrite El in Hk. injection Hk as <-.
      apply (Heof pr (nth_error_In _ _ Hp)). eapply nth_error_In, Hx.
    Qed.
    Lemma at_word i a : i <= length w -> nth_error tokens i = Some a -> a <> 0 -> i < length w /\ nth_error w i = Some a.
    Proof using Hend.
      destruct Hend as [-> Hn]. intros Hi Ha Hne. destruct (Nat.eq_dec i (length w)) as [->|Hd].
      - rewrite nth_error_app_mid in Ha. congruence.
      - split; [lia|]. rewrite nth_error_app1 in Ha by lia. exact Ha.
    Qed.
    Lemma at_end i : i <= length w -> nth_error tokens i = Some 0 -> i = length w.
    Proof using Hend.
      destruct Hend as [-> Hn]. intros Hi Ha. destruct (Nat.eq_dec i (length w)) as [|Hd]; auto.
      rewrite nth_error_app1 in Ha by lia. exfalso. apply Hn. eapply nth_error_In, Ha.
    Qed.
    Lemma next_tok i : i < length w -> exists a, nth_error tokens (S i) = Some a.
    Proof using Hend.
      destruct Hend as [-> _]. intros Hi. destruct (nth_error (w ++ [0]) (S i)) eqn:E; eauto.
      apply nth_error_None in E. rewrite app_length in E. simpl in E. lia.
    Qed.

    Lemma inv_init : exists a tl, tokens = a :: tl /\ inv (parse_init a) [].
    Proof using Hend.
      destruct Hend as [E _]. destruct tokens as [|a tl] eqn:Et; [destruct w; discriminate|]. exists a, tl. split; auto.
      split; [constructor|]. split; [reflexivity|]. split; [simpl; lia|]. split; [rewrite Et; reflexivity|]. reflexivity.
    Qed.

    Lemma inv_shift q s x j ts c : inv c ts -> ps_stack c = q :: s -> terminal x -> tok g (ps_a c) x ->
      (exists p d k', st t q p d k' /\ sym_at g p d x) -> trans g t q x j ->
      inv (PState (j :: q :: s) (S (ps_i c)) (snd (next_token tokens (ps_i c) (ps_a c))) (ps_trace c)) (Leaf x :: ts) /\ ps_i c < length w.
    Proof using W Hend Heof.
      intros (Hs & Htr & Hi & Ha & Hy) Es Hx Hk (p & d & k' & _ & Hsx) Ht.
      destruct (at_word _ _ Hi Ha (tok_not_eof _ _ _ _ Hk Hsx)) as [Hlt Hw]. destruct (next_tok _ Hlt) as [a' Ha'].
      split; auto. split; [|split; [|split; [|split]]]; cbn [ps_stack ps_trace ps_i ps_a].
      - rewrite Es in Hs. eapply stk_push; [exact Hs|eassumption|constructor; assumption|reflexivity].
      - simpl. rewrite flat_map_app, Htr. simpl. rewrite app_nil_r. reflexivity.
      - lia.
      - unfold next_token. rewrite Ha'. reflexivity.
      - unfold symbols in *. rewrite (firstn_snoc _ _ _ Hw), map_app, Hy. simpl. rewrite flat_map_app, map_app. simpl.
        destruct Hk as [-> _]. reflexivity.
    Qed.

    Lemma inv_reduce p pr q' s' j q s ts c : inv c ts -> ps_stack c = q :: s -> nth_error (g_prods g) p = Some pr ->
      skipn (length (p_syms pr)) (q :: s) = q' :: s' ->
      stacked (q' :: s') (skipn (length (p_syms pr)) ts) ->
      map (root g) (rev (firstn (length (p_syms pr)) ts)) = map Some (p_syms pr) ->
      trans g t q' (SNon (p_name pr)) j ->
      inv (PState (j :: q' :: s') (ps_i c) (ps_a c) (ps_trace c ++ [p]))
        (Node p (rev (firstn (length (p_syms pr)) ts)) :: skipn (length (p_syms pr)) ts).
    Proof.
      intros (Hs & Htr & Hi & Ha & Hy) Es Hp E Hs' Hm Ht.
      pose proof (node_ok p pr ts Hp (stacked_ok _ _ Hs) Hm) as Hn.
      split; [|split; [|split; [|split]]]; cbn [ps_stack ps_trace ps_i ps_a]; auto.
      - econstructor; eauto. simpl. rewrite Hp. reflexivity.
      - cbn [rev]. rewrite flat_map_app. simpl. rewrite app_nil_r, app_assoc, reduce_flat, Htr. reflexivity.
      - unfold symbols in *. rewrite Hy. cbn [rev]. rewrite flat_map_app. simpl. rewrite app_nil_r, reduce_flat. reflexivity.
    Qed.

    Lemma inv_step c c' ts : inv c ts -> parse_step g t tokens c = inl c' -> exists ts', inv c' ts'.
    Proof using W Hend Heof A.
      intros HI E. pose proof (step_outcome tokens c ts (proj1 HI)) as O. rewrite E in O. inversion O; subst.
      - eexists. eapply inv_shift; eauto.
      - eexists. eapply inv_reduce; eauto.
    Qed.

    (** Accepting: the stack holds exactly a tree of the start symbol. *)
    Lemma inv_accept c ts q s d : start_fresh g -> inv c ts -> ps_stack c = q :: s -> ps_a c = 0 -> complete g 0 d -> st t q 0 d 0 ->
      exists tr, ts = [tr] /\ parse_tree g start w tr /\ ps_trace c = postorder tr.
    Proof using W Hst Hend A.
      intros Hf (Hs & Htr & Hi & Ha & Hy) Es E0 (pr & Hp & ->) Hk. rewrite Es in Hs.
      destruct (back _ _ _ _ _ _ Hs Hk) as (pr' & q' & s' & k' & Hp' & Hl & E & Hs' & Hm & Hk'). rewrite Hp in Hp'. injection Hp' as <-.
      rewrite (wg_prod0 _ _ W) in Hp. injection Hp as <-. cbn [p_syms length] in *.
      assert (Hts : skipn 1 ts = []).
      { inversion Hs' as [Eq Ets|q0 q1 s0 ts0 tr x H0 Ht Ho Hr Eq Ets]; auto. exfalso.
        destruct Ht as (_ & _ & Hpar & _). destruct (Hpar 0 k' _ Hk' (wg_prod0 _ _ W)) as (p1 & d1 & k1 & _ & (pr1 & Hp1 & Hx1)).
        apply (Hf pr1 (nth_error_In _ _ Hp1)). rewrite Hst. eapply nth_error_In, Hx1. }
      destruct ts as [|tr ts]; [simpl in Hl; lia|]. simpl in Hts. subst ts. exists tr. split; auto.
      simpl in Hm. injection Hm as Hm. simpl in Hy, Htr. rewrite app_nil_r in Hy, Htr.
      pose proof (stacked_ok _ _ Hs) as Ho. inversion Ho; subst. split; auto. split; auto. split; auto.
      rewrite E0 in Ha. rewrite (at_end _ Hi Ha), firstn_all in Hy. exact Hy.
    Qed.

    Lemma parse_sound ps : start_fresh g -> parse_impl g t tokens = Ok ps ->
      exists tr, parse_tree g start w tr /\ ps = postorder tr.
    Proof using W Hst Hend Heof A.
      intros Hf. destruct inv_init as (a & tl & Et & H0). unfold parse_impl. rewrite Et. rewrite <- Et.
      pose proof (run_inv (parse_step g t tokens) (fun c => exists ts, inv c ts)
        (fun r => forall ps, r = Ok ps -> exists tr, parse_tree g start w tr /\ ps = postorder tr) (parse_bits g tokens) (parse_init a)) as HR.
      destruct (run _ _ _) as [c|r]; [discriminate|]. intros ->. eapply HR; [| |eauto|reflexivity].
      - intros s s' [ts Hs] E. eapply inv_step; eauto.
      - intros s r [ts Hs] E qs ->. pose proof (step_outcome tokens s ts (proj1 Hs)) as O. rewrite E in O. inversion O; subst.
        edestruct inv_accept as (tr & _ & HA1 & HA2); eauto.
    Qed.

    (** In closed tables GOTO is never empty. *)
    Lemma goto_nonempty p pr q' k' q a : closed g t -> start_fresh g ->
      st t q p (length (p_syms pr)) a -> nth_error (g_prods g) p = Some pr -> ~ (a = 0 /\ p = 0) -> st t q' p 0 k' ->
      tbl_get (t_goto t) q' (p_name pr) <> None.
    Proof using A.
      intros Hcl Hf Hq Hp Hne Hk' E.
      destruct (a_parent _ _ A _ _ _ _ Hk' Hp) as [[-> ->]|(p1 & d1 & k1 & H1 & Hx)].
      - apply Hne. split; auto. eapply (a_start_la _ _ A); eauto.
      - destruct (Hcl q' p1 d1 k1 _ H1 Hx) as [_ H2]. destruct (H2 _ eq_refl) as [j Hj]. congruence.
    Qed.
  End Ended.

  Lemma closed_fails_only tokens p : closed g t -> start_fresh g -> tokens <> [] -> parse_impl g t tokens = Panic p -> p = PInvalidToken.
  Proof using A.
    intros Hcl Hf Hne. unfold parse_impl. destruct tokens as [|a tokens]; [congruence|].
    pose proof (run_inv (parse_step g t (a :: tokens)) inv0
      (fun r => forall p, r = Panic p -> p = PInvalidToken) (parse_bits g (a :: tokens)) (parse_init a)) as HR.
    destruct (run _ _ _) as [c|r]; [discriminate|]. intros ->. eapply HR; [| |apply inv0_init|reflexivity].
    - intros s s' Hs E. eapply inv0_step; eauto.
    - intros s r (ts & Hs & _) E q ->. pose proof (step_outcome (a :: tokens) s ts Hs) as O. rewrite E in O.
      inversion O; subst; auto. exfalso. eapply goto_nonempty; eauto.
  Qed.
End Sound.
