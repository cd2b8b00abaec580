(** Error reports: the consumed prefix is viable, the offending token is not. *)
From Verif Require Import Base Grammar GrammarSpec GrammarProofs First FirstProofs Item ItemSpec ItemProofs ItemPlain Table TableFacts Parse ParseSpec TreeFacts Auto ParseProofs ParseTerm ParseCycle ParseComplete Report ReportSpec.

Section Viable.
  Variables (g : grammar) (start : str).
  Hypothesis W : wf_grammar g start.
  Hypothesis Hst : g_start g = aug_name start.
  Variables (hash : list item -> N) (t : tables).
  Hypothesis Ht : make_tables hash g = Ok t.
  Hypothesis Hf : start_fresh g.
  Let A : auto g t := tables_auto g start W Hst hash t Ht.

  (** Every item comes from a kernel item by finitely many closure steps. *)
  Inductive grounded (i : nat) : nat -> nat -> Prop :=
  | gr_kernel p d k : st t i p (S d) k -> grounded i p (S d)
  | gr_start : st t i 0 0 0 -> grounded i 0 0
  | gr_rule p d q pq : grounded i p d -> sym_at g p d (SNon (p_name pq)) -> nth_error (g_prods g) q = Some pq -> grounded i q 0.

  Lemma st_grounded i p d k : st t i p d k -> grounded i p d.
  Proof using W Ht.
    intros H. destruct (make_tables_built _ _ _ _ W Ht) as (lr0 & m & B).
    destruct (st_lr g start W hash t lr0 m i p d k B H) as (I & HI & Hk & Hi & _).
    assert (G : (exists K : lrset, (forall p d k, K p d k -> d <> 0 \/ p = 0 /\ k = 0) /\ forall p d k, clo g (F_code g) K p d k <-> I p d k)).
    { inversion HI as [|J x HJ Hne].
      - exists init_set. split; [intros p1 d1 k1 (-> & -> & ->); auto|intros p1 d1 k1; reflexivity].
      - exists (move g J x). split; [intros p1 d1 k1 (d' & -> & _); auto|intros p1 d1 k1; reflexivity]. }
    destruct G as (K & HK & Hq). apply Hq in Hk.
    assert (Hst' : forall p d k, clo g (F_code g) K p d k -> st t i p d k) by (intros; apply Hi, Hq; auto).
    clear Hi Hq HI H. induction Hk as [p d k Hk|p d k a q pq b k' Hk IH Hs Hp Ha HF Hb].
    - pose proof (Hst' _ _ _ (clo_base _ _ _ _ _ _ Hk)) as H. destruct d as [|d]; [|econstructor; eauto].
      apply HK in Hk as [C|[-> ->]]; [congruence|]. constructor; auto.
    - econstructor; eauto.
  Qed.

  Definition used (x : sym) : Prop := exists p, In p (g_prods g) /\ In x (p_syms p).
  Lemma rest_used p d : Forall used (rest g p d).
  Proof.
    apply Forall_forall. intros x Hx. unfold rest in Hx. destruct (nth_error (g_prods g) p) as [pr|] eqn:Hp; [|destruct Hx].
    exists pr. split; [eapply nth_error_In, Hp|]. rewrite <- (firstn_skipn d). apply in_or_app. auto.
  Qed.
  Lemma rest_cons p d x : sym_at g p d x -> rest g p d = x :: rest g p (S d).
  Proof.
    intros (pr & Hp & Hx). unfold rest. rewrite Hp. clear Hp. revert d Hx. generalize (p_syms pr) as l.
    induction l as [|y l IH]; intros [|d] Hx; simpl in *; try discriminate; [congruence|]. apply IH, Hx.
  Qed.

  Lemma stacked_viable s ts : stacked g t s ts -> forall q s' p d k, s = q :: s' -> st t q p d k ->
    exists l v, map (root g) (rev ts) = map Some l /\ Forall used v /\ derives g [SNon start] (l ++ rest g p d ++ v).
  Proof using W Hst Ht Hf.
    induction 1 as [|q0 q' s0 ts tr x Hs IH Htr Ho Hr]; intros q s' p d k E Hk; injection E as <- <-;
      apply st_grounded in Hk; clear k; revert Hk.
    - intros Hk. exists []. cbn [rev map app].
      enough (exists v, Forall used v /\ derives g [SNon start] (rest g p d ++ v)) as (v & Hv & Hd) by eauto.
      induction Hk as [p d k Hk|_|p d q1 pq _ (v & Hv & Hd) Hsy Hq].
      + apply (a_zero _ _ A) in Hk. discriminate.
      + exists []. split; auto. unfold rest. rewrite (wg_prod0 _ _ W). constructor.
      + exists (rest g p (S d) ++ v). split; [apply Forall_app; split; auto using rest_used|].
        rewrite (rest_cons _ _ _ Hsy) in Hd. eapply derives_trans; [exact Hd|].
        unfold rest at 2. rewrite Hq. cbn [skipn].
        change (SNon (p_name pq) :: rest g p (S d)) with ([SNon (p_name pq)] ++ rest g p (S d)). rewrite <- app_assoc.
        apply (derives_ctx g [] [SNon (p_name pq)] (p_syms pq) (rest g p (S d) ++ v)). apply derives_rule. exists pq. split; [eapply nth_error_In, Hq|auto].
    - intros Hk. destruct Htr as (_ & Hb & Hp0 & _).
      assert (El : exists l, map (root g) (rev (tr :: ts)) = map Some (l ++ [x]) /\ map (root g) (rev ts) = map Some l).
      { clear -W Hst Ht Hs Hr. pose proof (tables_auto g start W Hst hash t Ht) as A'.
        assert (G : exists l, map (root g) (rev ts) = map Some l).
        { clear Hr tr x. induction Hs as [|q q' s ts tr x Hs IH Htr Ho Hr]; [exists []; reflexivity|].
          destruct IH as [l El]. exists (l ++ [x]). cbn [rev]. rewrite !map_app, El. cbn [map]. rewrite Hr. reflexivity. }
        destruct G as [l El]. exists l. split; auto. cbn [rev]. rewrite !map_app, El. cbn [map]. rewrite Hr. reflexivity. }
      destruct El as (l0 & El & El0). exists (l0 ++ [x]).
      enough (exists v, Forall used v /\ derives g [SNon start] ((l0 ++ [x]) ++ rest g p d ++ v)) as (v & Hv & Hd) by eauto.
      induction Hk as [p d k Hk|Hk|p d q1 pq _ (v & Hv & Hd) Hsy Hq].
      + destruct (Hb _ _ _ Hk) as (Hsy & k' & Hk'). destruct (IH _ _ _ _ _ eq_refl Hk') as (l & v & Hl & Hv & Hd).
        assert (l = l0) as ->.
        { rewrite Hl in El0. clear -El0. revert l0 El0. induction l as [|a l IH]; intros [|b l0] E; try discriminate; auto. simpl in E. injection E as -> E. f_equal. auto. }
        exists v. split; auto. rewrite (rest_cons _ _ _ Hsy) in Hd. rewrite <- app_assoc. exact Hd.
      + exfalso. destruct (Hp0 0 0 _ Hk (wg_prod0 _ _ W)) as (p' & d' & k' & _ & pr' & Hp' & Hx).
        cbn [p_name] in Hx. apply (Hf pr' (nth_error_In _ _ Hp')). rewrite Hst. eapply nth_error_In, Hx.
      + exists (rest g p (S d) ++ v). split; [apply Forall_app; split; auto using rest_used|].
        rewrite (rest_cons _ _ _ Hsy) in Hd. eapply derives_trans; [exact Hd|].
        unfold rest at 2. rewrite Hq. cbn [skipn].
        change (SNon (p_name pq) :: rest g p (S d)) with ([SNon (p_name pq)] ++ rest g p (S d)). rewrite <- (app_assoc [_] (rest g p (S d))).
        apply derives_ctx. apply derives_rule. exists pq. split; [eapply nth_error_In, Hq|auto].
  Qed.

  Lemma used_token x : used x -> exists k, nth_error (g_tokens g) k = Some x.
  Proof using W.
    intros H. apply In_nth_error. destruct (wg_tokens _ _ W) as (l & -> & _ & Hl). right. apply Hl, H.
  Qed.
  Lemma derives_used u v : derives g u v -> Forall used u -> Forall used v.
  Proof.
    induction 1 as [|u v w [a B b c (pr & Hin & _ & Hb)] _ IH]; auto. intros Hu. apply IH.
    apply Forall_app in Hu as [H1 H2]. inversion H2; subst. apply Forall_app. split; auto. apply Forall_app. split; auto.
    apply Forall_forall. intros x Hx. exists pr. auto.
  Qed.
  Lemma used_symbols l : Forall used l -> exists u, symbols g u l.
  Proof using W.
    induction 1 as [|x l Hx _ [u Hu]]; [exists []; reflexivity|]. destruct (used_token x Hx) as [k Hk].
    exists (k :: u). unfold symbols in *. cbn [map]. rewrite Hk, Hu. reflexivity.
  Qed.

  Hypothesis Hprod : all_productive g.
  Lemma productive_all l : Forall used l -> exists m, terminals m /\ Forall used m /\ derives g l m.
  Proof using Hprod.
    induction 1 as [|x l (p & Hp & Hx) _ (m & Hm & Hu & Hd)].
    - exists []. split; [constructor|]. split; constructor.
    - destruct (Hprod p x Hp Hx) as (m0 & Hm0 & Hd0). exists (m0 ++ m). split; [apply Forall_app; auto|]. split.
      + apply Forall_app. split; auto. eapply derives_used; [exact Hd0|]. constructor; auto. exists p. auto.
      + apply (derives_app g [x] m0 l m Hd0 Hd).
  Qed.

  (** What is on the stack, with what an item of the top state expects, can be continued. *)
  Lemma stack_sentence q s ts p d k u v : stacked g t (q :: s) ts -> st t q p d k -> symbols g u (flat_map yield (rev ts)) ->
    (exists r, rest g p d = v ++ r /\ terminals v) -> forall uv, symbols g uv v -> viable_prefix g start (u ++ uv).
  Proof using W Hst Ht Hf Hprod.
    intros Hs Hk Hu (r & Er & Hv) uv Huv. destruct (stacked_viable _ _ Hs _ _ _ _ _ eq_refl Hk) as (l & v' & Hl & Hv' & Hd).
    assert (Hr : Forall used r). { pose proof (rest_used p d) as H. rewrite Er in H. apply Forall_app in H. tauto. }
    destruct (productive_all (r ++ v')) as (m & Hm & Hum & Hdm); [apply Forall_app; auto|].
    destruct (used_symbols m Hum) as (um & Hsm). exists um. exists (flat_map yield (rev ts) ++ v ++ m).
    pose proof (stacked_ok g t _ _ Hs) as Hok. split; [|split].
    - unfold symbols in *. rewrite !map_app, Hu, Huv, Hsm, app_assoc. reflexivity.
    - apply Forall_app. split; [apply (forest_terminals g); apply Forall_rev; auto|]. apply Forall_app. auto.
    - eapply derives_trans; [exact Hd|]. apply derives_app; [apply forest_derives'; auto; apply Forall_rev; auto|].
      rewrite Er, <- app_assoc. apply derives_app; [constructor|]. exact Hdm.
  Qed.
End Viable.

(** ** The report *)
Lemma report_run g t tokens b c : match run (parse_step g t tokens) b c, run (report_step g t tokens) b c with
  | inl c1, inl c2 => c1 = c2
  | inr r, inr o => exists n c', nsteps (parse_step g t tokens) n c c' /\ parse_step g t tokens c' = inr r /\ report_step g t tokens c' = inr o
  | _, _ => False
  end.
Proof.
  revert c. induction b as [|b IH]; intros c; cbn [run].
  - destruct (parse_step g t tokens c) as [c'|r] eqn:E.
    + unfold report_step. rewrite E. reflexivity.
    + destruct (report_step g t tokens c) as [c'|o] eqn:E'.
      * unfold report_step in E'. rewrite E in E'. destruct r as [|[]|]; discriminate.
      * exists 0, c. split; [constructor|auto].
  - pose proof (IH c) as H. pose proof (run_nsteps (parse_step g t tokens) b c) as Hn.
    destruct (run (parse_step g t tokens) b c) as [c1|r] eqn:E1, (run (report_step g t tokens) b c) as [c2|o] eqn:E2; try contradiction; [|exact H].
    subst c2. specialize (IH c1). destruct (run (parse_step g t tokens) b c1) as [c2|r2], (run (report_step g t tokens) b c1) as [c3|o3]; auto.
    destruct IH as (n & c' & H1 & H2 & H3). exists (2 ^ b + n), c'. split; [eapply nsteps_trans; eauto|auto].
Qed.

Lemma parse_report_end g t tokens r : parse_report g t tokens = Some r -> exists a tl n c q s,
  tokens = a :: tl /\ nsteps (parse_step g t tokens) n (parse_init a) c /\ parse_step g t tokens c = inr (Panic PInvalidToken) /\
  ps_stack c = q :: s /\ r = Report (ps_i c) (ps_a c) (tbl_valid (t_action t) q) /\ parse_impl g t tokens = Panic PInvalidToken.
Proof.
  unfold parse_report, parse_impl. destruct tokens as [|a tl]; [discriminate|]. pose proof (report_run g t (a :: tl) (parse_bits g (a :: tl)) (parse_init a)) as H.
  destruct (run (parse_step g t _) _ _) as [c1|r1], (run (report_step g t _) _ _) as [c2|o]; try contradiction; [discriminate|].
  intros ->. destruct H as (n & c & Hn & E1 & E2). unfold report_step in E2. rewrite E1 in E2.
  destruct r1 as [|[]|]; try discriminate. destruct (ps_stack c) as [|q s] eqn:Es; [discriminate|]. injection E2 as <-.
  exists a, tl, n, c, q, s. repeat (split; [solve [auto]|]). reflexivity.
Qed.
Lemma parse_report_some g t tokens : parse_impl g t tokens = Panic PInvalidToken -> exists r, parse_report g t tokens = Some r.
Proof.
  unfold parse_report, parse_impl. destruct tokens as [|a tl]; [discriminate|]. pose proof (report_run g t (a :: tl) (parse_bits g (a :: tl)) (parse_init a)) as H.
  destruct (run (parse_step g t _) _ _) as [c1|r1], (run (report_step g t _) _ _) as [c2|o]; try contradiction; try discriminate.
  intros ->. destruct H as (n & c & Hn & E1 & E2). unfold report_step in E2. rewrite E1 in E2.
  destruct (ps_stack c) as [|q s] eqn:Es; [|injection E2 as <-; eauto]. unfold parse_step in E1. rewrite Es in E1. discriminate.
Qed.

(** ** The parser looks no further than the current token *)
Lemma step_pos g t tokens c c' : parse_step g t tokens c = inl c' -> ps_i c' = ps_i c \/ ps_i c' = S (ps_i c).
Proof.
  unfold parse_step. destruct (ps_stack c) as [|q s]; [discriminate|].
  destruct (tbl_get (t_action t) q (ps_a c)) as [[j|p|]|]; try discriminate.
  - unfold next_token. intros E. injection E as <-. auto.
  - destruct (get_production g p) as [pr|]; [|discriminate]. destruct (_ <? _); [discriminate|].
    destruct (skipn _ _); [discriminate|]. destruct (tbl_get _ _ _); [|discriminate]. intros E. injection E as <-. auto.
Qed.
Lemma nsteps_pos g t tokens n c c' : nsteps (parse_step g t tokens) n c c' -> ps_i c <= ps_i c'.
Proof. induction 1 as [|n c c1 c2 E _ IH]; auto. apply step_pos in E. lia. Qed.
Lemma step_agree g t tokens tokens' c c' : parse_step g t tokens c = inl c' ->
  (forall k, k <= ps_i c' -> nth_error tokens k = nth_error tokens' k) -> parse_step g t tokens' c = inl c'.
Proof.
  unfold parse_step. destruct (ps_stack c) as [|q s]; [discriminate|].
  destruct (tbl_get (t_action t) q (ps_a c)) as [[j|p|]|]; try discriminate; auto.
  unfold next_token. intros E H. rewrite <- (H (S (ps_i c))); auto. injection E as <-. reflexivity.
Qed.
Lemma nsteps_agree g t tokens tokens' n c c' : nsteps (parse_step g t tokens) n c c' ->
  (forall k, k <= ps_i c' -> nth_error tokens k = nth_error tokens' k) -> nsteps (parse_step g t tokens') n c c'.
Proof.
  induction 1 as [|n c c1 c2 E Hn IH]; intros H; [constructor|]. econstructor; [|apply IH, H].
  eapply step_agree; [exact E|]. intros k Hk. apply H. apply nsteps_pos in Hn. lia.
Qed.

Lemma sentence_no_eof g start u : wf_grammar g start -> eof_free g -> sentence g start u -> ~ In 0 u.
Proof.
  intros W Heof (l & Hl & Htl & Hd) H0. destruct (derives_tree g _ _ Hd Htl) as (tr & Ho & Hr & Hy). subst l.
  apply (no_eof g tr Heof Ho ltac:(congruence)). apply (in_map (nth_error (g_tokens g))) in H0. unfold symbols in Hl. rewrite Hl in H0.
  pose proof (token_eof g _ W) as E0. unfold get_token in E0. rewrite E0 in H0. apply in_map_iff in H0 as (x & Ex & Hx). injection Ex as ->. exact Hx.
Qed.
Lemma nth_error_firstn {B} (l : list B) i k : k < i -> nth_error (firstn i l) k = nth_error l k.
Proof. revert i k. induction l as [|x l IH]; intros [|i] [|k] H; simpl; try lia; auto. apply IH. lia. Qed.

Section Reports.
  Variables (g : grammar) (start : str).
  Hypothesis W : wf_grammar g start.
  Hypothesis Hst : g_start g = aug_name start.
  Variables (hash : list item -> N) (t : tables).
  Hypothesis Ht : make_tables hash g = Ok t.
  Hypothesis He : eps_free g.
  Hypothesis Heof : eof_free g.
  Hypothesis Hf : start_fresh g.
  Let A : auto g t := tables_auto g start W Hst hash t Ht.

  Lemma top_item s ts : stacked g t s ts -> exists q s' p d k, s = q :: s' /\ st t q p d k.
  Proof using A. destruct 1 as [|q q' s ts tr x _ [(p & d & k & H) _] _ _]; [exists 0, [], 0, 0, 0; split; auto; apply (a_init _ _ A)|exists q', (q :: s), p, d, k; auto]. Qed.

  (** [c] is reached on [tokens]. *)
  Definition reached (tokens : list nat) (c : pstate) : Prop :=
    exists a tl n, tokens = a :: tl /\ nsteps (parse_step g t tokens) n (parse_init a) c.

  Lemma reached_inv tokens w c : ended tokens w -> reached tokens c -> exists ts, inv g t tokens w c ts.
  Proof using W A Heof.
    intros Hend (a & tl & n & Et & Hn). destruct (inv_init g t tokens w Hend) as (a' & tl' & Et' & H0).
    rewrite Et in Et'. injection Et' as <- <-. eapply (inv_nsteps g start W t A tokens w Hend Heof); eauto.
  Qed.
  Lemma reached_step tokens c c' : reached tokens c -> parse_step g t tokens c = inl c' -> reached tokens c'.
  Proof.
    intros (a & tl & n & Et & Hn) E. exists a, tl, (n + 1). split; auto. eapply nsteps_trans; [exact Hn|]. econstructor; [exact E|constructor].
  Qed.
  Lemma reached_pred tokens c : reached tokens c -> (exists a tl, tokens = a :: tl /\ c = parse_init a) \/
    exists c0, reached tokens c0 /\ parse_step g t tokens c0 = inl c.
  Proof.
    intros (a & tl & n & Et & Hn). destruct n as [|n]; [inversion Hn; subst; left; eauto|]. right.
    replace (S n) with (n + 1) in Hn by lia. apply nsteps_split in Hn as (c0 & H1 & H2). exists c0. split; [exists a, tl, n; auto|].
    inversion H2 as [|? ? c1 ? E H3]; subst. inversion H3; subst. exact E.
  Qed.
  Lemma reached_agree tokens tokens' c : reached tokens c -> (forall k, k <= ps_i c -> nth_error tokens k = nth_error tokens' k) -> reached tokens' c.
  Proof.
    intros (a & tl & n & Et & Hn) H. assert (E0 : nth_error tokens' 0 = Some a) by (rewrite <- H by lia; subst tokens; reflexivity).
    destruct tokens' as [|a' tl']; [discriminate|]. injection E0 as ->. exists a, tl', n. split; auto. eapply nsteps_agree; eauto.
  Qed.
  Lemma reached_end tokens w c r : ended tokens w -> reached tokens c -> parse_step g t tokens c = inr r -> parse_impl g t tokens = r.
  Proof using W A He Heof.
    intros Hend (a & tl & n & Et & Hn) E. destruct (parse_ends g start W t A He tokens w Hend Heof) as (a1 & Ea & [[_ Hcyc]|(m & c' & r' & Hm & Er & Ei)]);
      rewrite Et in Ea; injection Ea as <-.
    - exfalso. eapply forever_no_end; [eapply cyclic_forever; exact Hcyc|exact Hn|exact E].
    - rewrite Ei. exact (ends_unique _ _ _ _ _ _ _ _ Hm Er Hn E).
  Qed.

  Lemma reported tokens r : parse_report g t tokens = Some r -> exists c q s, reached tokens c /\
    parse_step g t tokens c = inr (Panic PInvalidToken) /\ ps_stack c = q :: s /\ r = Report (ps_i c) (ps_a c) (tbl_valid (t_action t) q).
  Proof.
    intros H. apply parse_report_end in H as (a & tl & n & c & q & s & Et & Hn & E & Es & Er & _). exists c, q, s. split; [exists a, tl, n; auto|auto].
  Qed.

  (** ** The consumed part is viable *)
  Lemma reached_viable tokens w c : all_productive g -> ended tokens w -> reached tokens c -> viable_prefix g start (firstn (ps_i c) w).
  Proof using W Hst Ht A Heof Hf.
    intros Hprod Hend Hc. destruct (reached_inv tokens w c Hend Hc) as (ts & Hs & _ & _ & _ & Hy).
    destruct (top_item _ _ Hs) as (q & s & p & d & k & Es & Hk). rewrite Es in Hs.
    pose proof (stack_sentence g start W Hst hash t Ht Hf Hprod q s ts p d k _ [] Hs Hk Hy) as H.
    rewrite <- (app_nil_r (firstn _ _)). apply H; [|reflexivity]. exists (rest g p d). split; auto. constructor.
  Qed.

  Lemma shift_follows tokens w c q s k j : all_productive g -> ended tokens w -> reached tokens c -> ps_stack c = q :: s ->
    tbl_get (t_action t) q k = Some (Shift j) -> can_follow g start (firstn (ps_i c) w) k.
  Proof using W Hst Ht A Heof Hf.
    intros Hprod Hend Hc Es Ha. destruct (reached_inv tokens w c Hend Hc) as (ts & Hs & _ & _ & _ & Hy). rewrite Es in Hs.
    apply (a_shift _ _ A) in Ha as (x & Hx & Htk & (p & d & k' & Hk & Hsy) & _).
    unfold can_follow. destruct (Nat.eqb_spec k 0) as [->|Hne]; [exfalso; eapply (tok_not_eof g start W Heof); eauto|].
    eapply (stack_sentence g start W Hst hash t Ht Hf Hprod q s ts p d k' _ [x] Hs Hk Hy).
    - exists (rest g p (S d)). split; [apply rest_cons, Hsy|]. constructor; auto.
    - unfold symbols. simpl. destruct Htk as [-> _]. reflexivity.
  Qed.

  (** ** The token reported is wrong *)
  Hypothesis Hcl : closed g t.
  Lemma sentence_accepted u : sentence g start u -> exists ps, parse_impl g t (u ++ [0]) = Ok ps.
  Proof using W Hst Ht He Heof Hf Hcl.
    intros Hu. pose proof (sentence_no_eof g start u W Heof Hu) as H0. destruct Hu as (l & Hl & Htl & Hd).
    destruct (derives_tree g _ _ Hd Htl) as (tr & Ho & Hr & Hy). exists (postorder tr).
    eapply (parse_complete g start W Hst hash t Ht He Heof Hf Hcl _ u); [split; auto|]. split; auto. split; auto. rewrite Hy. exact Hl.
  Qed.

  (** The token sequence showing that [k] can follow [u]. *)
  Lemma follow_tokens u k : can_follow g start u k -> exists z, nth_error (u ++ k :: z) (length u) = Some k /\
    (exists w', ended (u ++ k :: z) w') /\ exists ps, parse_impl g t (u ++ k :: z) = Ok ps.
  Proof using W Hst Ht He Heof Hf Hcl.
    unfold can_follow. destruct (Nat.eqb_spec k 0) as [->|Hk].
    - intros Hu. exists []. split; [apply nth_error_app_mid|]. split; [exists u; split; auto; eapply sentence_no_eof; eauto|].
      apply sentence_accepted, Hu.
    - intros (z & Hu). exists (z ++ [0]). rewrite <- app_assoc in Hu. cbn [app] in Hu. split; [apply nth_error_app_mid|].
      split; [exists (u ++ k :: z); split; [rewrite <- app_assoc; reflexivity|eapply sentence_no_eof; eauto]|].
      destruct (sentence_accepted _ Hu) as [ps H]. exists ps. rewrite <- app_assoc in H. exact H.
  Qed.

  Lemma agree_upto (tokens w u z : list nat) k i : tokens = w ++ [0] -> i <= length w -> u = firstn i w -> nth_error tokens i = Some k ->
    forall j, j <= i -> nth_error tokens j = nth_error (u ++ k :: z) j.
  Proof.
    intros Et Hi -> Hk j Hj. assert (Hl : length (firstn i w) = i) by (rewrite firstn_length; lia).
    destruct (Nat.eq_dec j i) as [->|Hd].
    - rewrite nth_error_app2 by lia. rewrite Hl, Nat.sub_diag. exact Hk.
    - rewrite nth_error_app1 by lia. rewrite nth_error_firstn by lia. rewrite Et, nth_error_app1 by lia. reflexivity.
  Qed.
  Lemma agree_below (tokens w u z : list nat) k i : tokens = w ++ [0] -> i <= length w -> u = firstn i w ->
    forall j, j < i -> nth_error tokens j = nth_error (u ++ k :: z) j.
  Proof.
    intros Et Hi -> j Hj. assert (Hl : length (firstn i w) = i) by (rewrite firstn_length; lia).
    rewrite nth_error_app1 by lia. rewrite nth_error_firstn by lia. rewrite Et, nth_error_app1 by lia. reflexivity.
  Qed.

  Lemma invalid_wrong tokens w c : ended tokens w -> reached tokens c -> parse_step g t tokens c = inr (Panic PInvalidToken) ->
    ~ can_follow g start (firstn (ps_i c) w) (ps_a c).
  Proof using W Hst Ht A He Heof Hf Hcl.
    intros Hend Hc E Hfo. destruct (reached_inv tokens w c Hend Hc) as (ts & Hs & _ & Hi & Ha & _).
    destruct (follow_tokens _ _ Hfo) as (z & _ & (w' & Hw') & ps & Hps).
    assert (Hc' : reached (firstn (ps_i c) w ++ ps_a c :: z) c).
    { eapply reached_agree; [exact Hc|]. eapply agree_upto; eauto. apply Hend. }
    assert (E' : parse_step g t (firstn (ps_i c) w ++ ps_a c :: z) c = inr (Panic PInvalidToken)).
    { destruct (parse_step g t (firstn (ps_i c) w ++ ps_a c :: z) c) as [c1|r1] eqn:E1; revert E E1; unfold parse_step;
        destruct (ps_stack c) as [|q s]; try discriminate; destruct (tbl_get (t_action t) q (ps_a c)) as [[j|p|]|]; try discriminate; try congruence;
        destruct (get_production g p); try discriminate; destruct (_ <? _); try discriminate; destruct (skipn _ _); try discriminate;
        destruct (tbl_get (t_goto t) _ _); discriminate. }
    pose proof (reached_end _ w' _ _ Hw' Hc' E') as H. congruence.
  Qed.

  (** ** Just after a shift, every token that can follow has an entry *)
  Lemma fresh_listed tokens w c q s k : ended tokens w -> reached tokens c -> ps_stack c = q :: s ->
    (ps_i c = 0 /\ c = parse_init (ps_a c) \/ exists c0, reached tokens c0 /\ parse_step g t tokens c0 = inl c /\ ps_i c = S (ps_i c0)) ->
    can_follow g start (firstn (ps_i c) w) k -> exists a, tbl_get (t_action t) q k = Some a.
  Proof using W Hst Ht A He Heof Hf Hcl.
    intros Hend Hc Es Hfresh Hfo. destruct (reached_inv tokens w c Hend Hc) as (ts & _ & _ & Hi & _ & _).
    destruct (follow_tokens _ _ Hfo) as (z & Hz & (w' & Hw') & ps & Hps). set (tokens' := firstn (ps_i c) w ++ k :: z) in *.
    assert (Hl : length (firstn (ps_i c) w) = ps_i c) by (rewrite firstn_length; lia). rewrite Hl in Hz.
    assert (Hc' : reached tokens' (PState (ps_stack c) (ps_i c) k (ps_trace c))).
    { destruct Hfresh as [[E0 Ec]|(c0 & Hc0 & E & Ei)].
      - rewrite E0 in Hz. destruct tokens' as [|a' tl']; [discriminate|]. injection Hz as ->. rewrite Ec. cbn [parse_init ps_stack ps_i ps_trace].
        exists k, tl', 0. split; auto. constructor.
      - assert (Hc0' : reached tokens' c0).
        { eapply reached_agree; [exact Hc0|]. intros j Hj. eapply agree_below; [apply Hend|exact Hi|reflexivity|lia]. }
        eapply reached_step; [exact Hc0'|]. revert E Ei. unfold parse_step. destruct (ps_stack c0) as [|q0 s0]; [discriminate|].
        destruct (tbl_get (t_action t) q0 (ps_a c0)) as [[j|p|]|]; try discriminate.
        + unfold next_token. intros E Ei. injection E as <-. cbn [ps_stack ps_i ps_trace] in *. rewrite Hz. reflexivity.
        + destruct (get_production g p); [|discriminate]. destruct (_ <? _); [discriminate|]. destruct (skipn _ _); [discriminate|].
          destruct (tbl_get (t_goto t) _ _); [|discriminate]. intros E Ei. injection E as <-. cbn [ps_i] in Ei. lia. }
    destruct (tbl_get (t_action t) q k) as [a|] eqn:Ea; [eauto|]. exfalso.
    assert (E' : parse_step g t tokens' (PState (ps_stack c) (ps_i c) k (ps_trace c)) = inr (Panic PInvalidToken)).
    { unfold parse_step. cbn [ps_stack ps_a]. rewrite Es, Ea. reflexivity. }
    pose proof (reached_end _ w' _ _ Hw' Hc' E') as H. congruence.
  Qed.
End Reports.

Lemma tbl_valid_get {V} (t : table nat V) i k : (exists l, tbl_valid t i = Some l /\ In k l) <-> exists v, tbl_get t i k = Some v.
Proof.
  unfold tbl_valid, tbl_get. destruct (map_get i t) as [m|]; simpl.
  - split.
    + intros (l & E & H). injection E as <-. destruct (map_get k m) eqn:Ek; eauto. apply map_get_None in Ek. contradiction.
    + intros (v & E). exists (keys m). split; auto. eapply map_get_Some_key; eauto.
  - split; [intros (l & E & _); discriminate|intros (v & E); discriminate].
Qed.
