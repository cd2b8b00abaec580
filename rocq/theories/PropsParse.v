(** Properties C29-C33: the parser. *)
From Verif Require Import Base Grammar GrammarSpec GrammarProofs GrammarCheck First Item ItemSpec ItemProofs ItemPlain
  Table TableSpec MergeProofs TableProofs TableFacts Witness PropsTable Parse ParseSpec ParseCheck TreeFacts Auto ParseProofs
  ParseTerm ParseCycle ParseComplete ParseExact.

Local Ltac compute_ok := vm_compute; reflexivity.

(** Setting of a witness: grammar [g] of [ast], its tables [t], the same for every hash function
    with which the code gets that far. *)
Definition tables_of (ast : list aprod) (g : grammar) (t : tables) : Prop :=
  grammar_from_ast ast = Ok g /\ make_tables ehash g = Ok t /\
  forall hash t', make_tables hash g = Ok t' -> t' = t.
Definition well_formed (g : grammar) : Prop := plain g /\ start_fresh g.

Local Ltac witness w Eg Et :=
  exists w; destruct (grammar_from_ast w) as [g| |] eqn:Eg; [|vm_compute in Eg; discriminate Eg..];
  destruct (make_tables ehash g) as [t| |] eqn:Et; [|vm_compute in Eg; injection Eg as <-; vm_compute in Et; discriminate Et..];
  exists g, t.
Local Ltac open Eg Et := vm_compute in Eg; injection Eg as <-; vm_compute in Et; injection Et as <-.
Local Ltac wf_ok Eg := vm_compute in Eg; injection Eg as <-;
  split; [split; [apply eps_free_b_ok|apply eof_free_b_ok]|apply start_fresh_b_ok]; reflexivity.

Lemma tables_of_any ast g t : grammar_from_ast ast = Ok g -> make_tables ehash g = Ok t -> tables_of ast g t.
Proof.
  intros Hg Ht. split; auto. split; auto. intros hash t' H. destruct (grammar_from_ast_ok _ _ Hg) as (s & _ & W & _).
  rewrite (make_tables_any hash ehash g _ t' W ehash_free H) in Ht. congruence.
Qed.

(** The condition [closed] of the theorems below, for grammars in which no two LR(1) states have
    the same core. *)
Theorem C28_closed_of_distinct_cores :
  forall ast g, grammar_from_ast ast = Ok g -> eps_free g -> forall hash t, make_tables hash g = Ok t ->
  (forall I J, lr_state g (F_std g) I -> lr_state g (F_std g) J -> same_core I J -> set_eq I J) -> closed g t.
Proof.
  intros ast g Hg He hash t Ht Hd i p d k x (s & Hs & Hk) Hx.
  destruct (C28_transitions_partial _ _ Hg He _ _ Ht Hd i s p d k x Hs Hk Hx) as [H1 H2]. split; auto.
  intros Htx kx Hkx. destruct (H1 Htx) as (kx' & j & Hk' & Hj). apply tok_idx in Hkx, Hk'. exists j. congruence.
Qed.
Print Assumptions C28_closed_of_distinct_cores.

(** ** C29 *)

(** Whatever is accepted is a sentence, and the reductions are the post-order of a parse tree of
    it: a rightmost derivation in reverse. *)
Theorem C29_soundness :
  forall ast g st, grammar_from_ast ast = Ok g -> find ap_start ast = Some st -> eof_free g -> start_fresh g ->
  forall hash t, make_tables hash g = Ok t ->
  forall tokens w ps, ended tokens w -> parse_impl g t tokens = Ok ps ->
  exists tr, parse_tree g (ap_name st) w tr /\ ps = postorder tr /\
    derives g [SNon (ap_name st)] (yield tr) /\ rm_reduce g ps (yield tr) [SNon (ap_name st)].
Proof.
  intros ast g s Hg Hs Heof Hf hash t Ht tokens w ps Hend Hp.
  destruct (grammar_from_ast_ok _ _ Hg) as (s' & Hs' & W & Hst & _). rewrite Hs in Hs'. injection Hs' as <-.
  destruct (parse_sound g _ W Hst t (tables_auto g _ W Hst hash t Ht) tokens w Hend Heof ps Hf Hp) as (tr & Htr & E).
  exists tr. split; auto. split; auto. destruct Htr as (Ho & Hr & _). split; [apply tree_derives; auto|].
  pose proof (rm_tree g tr _ [] [] Ho Hr ltac:(unfold terminals; auto) [] (yield tr)) as H. cbn [app] in H.
  rewrite app_nil_r in H. subst ps. apply H. constructor.
Qed.
Print Assumptions C29_soundness.

(** Without the condition on the augmented name it is false: S -> "a" S' | "c" accepts "a c". *)
Theorem C29_soundness_any_name_refuted :
  exists ast g t tokens w ps, tables_of ast g t /\ plain g /\ ended tokens w /\ parse_impl g t tokens = Ok ps /\
    forall st, find ap_start ast = Some st -> ~ exists tr, parse_tree g (ap_name st) w tr /\ ps = postorder tr.
Proof.
  witness w29 Eg Et. exists [1; 2; 0], [1; 2], [2]. split; [apply tables_of_any; auto|].
  split; [vm_compute in Eg; injection Eg as <-; split; [apply eps_free_b_ok|apply eof_free_b_ok]; reflexivity|].
  split; [split; [reflexivity|intros [H|[H|[]]]; discriminate]|]. open Eg Et. split; [compute_ok|].
  intros s Hs [tr ((Ho & Hr & Hy) & Hp)]. vm_compute in Hs. injection Hs as <-. cbn in Hr.
  destruct tr as [x|p ts]; [simpl in Hr; injection Hr as ->; inversion Ho as [x Hx|]; subst; exact (Hx _ eq_refl)|].
  inversion Ho as [|p' ts' pr Hpr Hts Hm]; subst. cbn [postorder] in Hp. 
  destruct (flat_map postorder ts) as [|a l] eqn:El; [|destruct l; discriminate Hp].
  injection Hp as <-. injection Hpr as <-. cbn [p_syms map] in Hm.
  destruct ts as [|tr [|? ?]]; try discriminate. injection Hm as Hm.
  destruct tr as [x|p ts]; [|simpl in El; rewrite app_nil_r in El; destruct (flat_map postorder ts); discriminate].
  simpl in Hm. injection Hm as ->. discriminate Hy.
Qed.
Print Assumptions C29_soundness_any_name_refuted.

Example C29_nonvacuous : exists g t st, tables_of w_cc g t /\ find ap_start w_cc = Some st /\ well_formed g /\
  ended [1; 2; 1; 2; 0] [1; 2; 1; 2] /\ parse_impl g t [1; 2; 1; 2; 0] = Ok [3; 2; 3; 2; 1].
Proof.
  destruct (grammar_from_ast w_cc) as [g| |] eqn:Eg; [|vm_compute in Eg; discriminate Eg..].
  destruct (make_tables ehash g) as [t| |] eqn:Et; [|vm_compute in Eg; injection Eg as <-; vm_compute in Et; discriminate Et..].
  eexists g, t, _. split; [apply tables_of_any; auto|]. split; [reflexivity|]. split; [wf_ok Eg|].
  split; [split; [reflexivity|simpl; intuition discriminate]|]. open Eg Et. compute_ok.
Qed.

(** ** C30 *)

(** False: missing transitions make the parser reject a sentence. *)
Theorem C30_completeness_refuted :
  exists ast g t tokens w, tables_of ast g t /\ well_formed g /\ ended tokens w /\
    (forall st, find ap_start ast = Some st -> sentence g (ap_name st) w) /\
    parse_impl g t tokens = Panic PInvalidToken.
Proof.
  witness w28 Eg Et. exists [7; 1; 2; 4; 0], [7; 1; 2; 4]. split; [apply tables_of_any; auto|].
  split; [wf_ok Eg|]. split; [split; [reflexivity|simpl; intuition discriminate]|]. open Eg Et. split; [|compute_ok].
  intros s Hs. vm_compute in Hs. injection Hs as <-. cbn [ap_name].
  set (tr := Node 1 [Leaf (SStr [117]%N); Node 4 [Leaf (SStr [99]%N); Node 6 [Leaf (SStr [100]%N)]]; Leaf (SStr [112]%N)]).
  match goal with |- sentence ?g ?n ?w => assert (H : parse_tree_b g n w tr = true) by compute_ok end.
  apply parse_tree_b_ok in H as (Ho & Hr & Hy).
  exists (yield tr). split; [exact Hy|]. split; [eapply tree_terminals; exact Ho|apply tree_derives; auto].
Qed.
Print Assumptions C30_completeness_refuted.

(** It holds when all transitions are in the tables (C28's conclusion); missing: the general case. *)
Theorem C30_completeness_partial :
  forall ast g st, grammar_from_ast ast = Ok g -> find ap_start ast = Some st -> plain g -> start_fresh g ->
  forall hash t, make_tables hash g = Ok t -> closed g t ->
  forall tokens w, ended tokens w ->
  (forall tr, parse_tree g (ap_name st) w tr -> parse_impl g t tokens = Ok (postorder tr)) /\
  (sentence g (ap_name st) w -> exists ps, parse_impl g t tokens = Ok ps).
Proof.
  intros ast g s Hg Hs [He Heof] Hf hash t Ht Hcl tokens w Hend.
  destruct (grammar_from_ast_ok _ _ Hg) as (s' & Hs' & W & Hst & _). rewrite Hs in Hs'. injection Hs' as <-.
  assert (H : forall tr, parse_tree g (ap_name s) w tr -> parse_impl g t tokens = Ok (postorder tr)).
  { intros tr Htr. eapply parse_complete; eauto. }
  split; auto. intros (l & Hl & Htl & Hd). destruct (derives_tree g _ _ Hd Htl) as (tr & Ho & Hr & Hy).
  exists (postorder tr). apply H. split; auto. split; auto. rewrite Hy. exact Hl.
Qed.
Print Assumptions C30_completeness_partial.

(** With soundness: the parser decides the language, and its trace determines the parse tree. *)
Theorem C30_accepts_exactly_the_sentences_partial :
  forall ast g st, grammar_from_ast ast = Ok g -> find ap_start ast = Some st -> plain g -> start_fresh g ->
  forall hash t, make_tables hash g = Ok t -> closed g t ->
  forall tokens w, ended tokens w ->
  ((exists ps, parse_impl g t tokens = Ok ps) <-> sentence g (ap_name st) w) /\
  (parse_impl g t tokens = Panic PInvalidToken <-> ~ sentence g (ap_name st) w).
Proof.
  intros ast g s Hg Hs Hp Hf hash t Ht Hcl tokens w Hend.
  assert (Hiff : (exists ps, parse_impl g t tokens = Ok ps) <-> sentence g (ap_name s) w).
  { split; [|apply (C30_completeness_partial _ _ _ Hg Hs Hp Hf _ _ Ht Hcl _ _ Hend)].
    intros [ps H]. destruct (C29_soundness _ _ _ Hg Hs (proj2 Hp) Hf _ _ Ht _ _ _ Hend H) as (tr & (Ho & Hr & Hy) & _ & Hd & _).
    exists (yield tr). split; auto. split; auto. eapply tree_terminals; eauto. }
  split; [exact Hiff|]. rewrite <- Hiff.
  destruct (grammar_from_ast_ok _ _ Hg) as (s' & Hs' & W & Hst & _). rewrite Hs in Hs'. injection Hs' as <-.
  destruct Hp as [He Heof]. split.
  - intros E [ps E']. congruence.
  - intros Hn. destruct (parse_impl g t tokens) as [ps|p|] eqn:E; [exfalso; eauto| |].
    + f_equal. eapply closed_fails_only; eauto using tables_auto. destruct Hend as [-> _]. destruct w; discriminate.
    + exfalso. eapply parse_terminates; eauto.
Qed.
Print Assumptions C30_accepts_exactly_the_sentences_partial.

(** Whether or not all transitions are there: what is accepted is exactly what has a parse tree
    along which all transitions are there ([moves]). *)
Theorem C30_accepts_iff :
  forall ast g st, grammar_from_ast ast = Ok g -> find ap_start ast = Some st -> plain g -> start_fresh g ->
  forall hash t, make_tables hash g = Ok t ->
  forall tokens w ps, ended tokens w ->
  (parse_impl g t tokens = Ok ps <-> exists tr j, parse_tree g (ap_name st) w tr /\ moves g t 0 tr j /\ ps = postorder tr).
Proof.
  intros ast g s Hg Hs [He Heof] Hf hash t Ht tokens w ps Hend.
  destruct (grammar_from_ast_ok _ _ Hg) as (s' & Hs' & W & Hst & _). rewrite Hs in Hs'. injection Hs' as <-.
  eapply accepts_iff; eauto.
Qed.
Print Assumptions C30_accepts_iff.

(** The tables of [w28] lack transitions, and still "w f d r" is accepted. *)
Example C30_accepts_nonvacuous : exists g t st ps, tables_of w28 g t /\ find ap_start w28 = Some st /\ well_formed g /\
  ~ closed g t /\ ended [9; 3; 2; 6; 0] [9; 3; 2; 6] /\ parse_impl g t [9; 3; 2; 6; 0] = Ok ps.
Proof.
  destruct (grammar_from_ast w28) as [g'| |] eqn:Eg; [|vm_compute in Eg; discriminate Eg..].
  destruct (make_tables ehash g') as [t'| |] eqn:Et; [|vm_compute in Eg; injection Eg as <-; vm_compute in Et; discriminate Et..].
  eexists g', t', _, _. split; [apply tables_of_any; auto|]. split; [reflexivity|]. split; [wf_ok Eg|].
  split; [|split; [split; [reflexivity|simpl; intuition discriminate]|open Eg Et; compute_ok]].
  intros Hcl. destruct (find ap_start w28) as [s|] eqn:Es; [|discriminate Es].
  assert (Hwf : well_formed g') by (wf_ok Eg).
  destruct (C30_completeness_partial w28 g' s Eg Es (proj1 Hwf) (proj2 Hwf) ehash t' Et Hcl [7; 1; 2; 4; 0] [7; 1; 2; 4]) as [H _];
    [split; [reflexivity|simpl; intuition discriminate]|].
  specialize (H (Node 1 [Leaf (SStr [117]%N); Node 4 [Leaf (SStr [99]%N); Node 6 [Leaf (SStr [100]%N)]]; Leaf (SStr [112]%N)])).
  clear Hcl Hwf. vm_compute in Es. injection Es as <-. open Eg Et.
  match type of H with ?P -> ?a = _ => assert (E : a = Panic PInvalidToken) by compute_ok; rewrite E in H end.
  discriminate H. apply parse_tree_b_ok. compute_ok.
Qed.

(** Meeting the hypotheses: a grammar with states merged (w_cc has 10 LR(1) and 7 LALR states). *)
Example C30_nonvacuous : exists g t st, tables_of w_cc g t /\ find ap_start w_cc = Some st /\ well_formed g /\ closed g t /\
  ended [1; 2; 1; 2; 0] [1; 2; 1; 2] /\ sentence g (ap_name st) [1; 2; 1; 2] /\
  ended [1; 2; 1; 0] [1; 2; 1] /\ parse_impl g t [1; 2; 1; 0] = Panic PInvalidToken.
Proof.
  destruct (grammar_from_ast w_cc) as [g| |] eqn:Eg; [|vm_compute in Eg; discriminate Eg..].
  destruct (make_tables ehash g) as [t| |] eqn:Et; [|vm_compute in Eg; injection Eg as <-; vm_compute in Et; discriminate Et..].
  eexists g, t, _. split; [apply tables_of_any; auto|]. split; [reflexivity|]. split; [wf_ok Eg|]. open Eg Et.
  split; [apply closed_b_ok; compute_ok|]. split; [split; [reflexivity|simpl; intuition discriminate]|].
  split; [|split; [split; [reflexivity|simpl; intuition discriminate]|compute_ok]].
  set (c := Node 2 [Leaf (SStr [99]%N); Node 3 [Leaf (SStr [100]%N)]]). set (tr := Node 1 [c; c]).
  cbn [ap_name].
  match goal with |- sentence ?g ?n ?w => assert (H : parse_tree_b g n w tr = true) by compute_ok end.
  apply parse_tree_b_ok in H as (Ho & Hr & Hy).
  exists (yield tr). split; [exact Hy|]. split; [eapply tree_terminals; exact Ho|apply tree_derives; auto].
Qed.

(** ** C31 *)

(** The model's loop reports [Diverge] exactly when the unbounded loop never stops; otherwise it
    returns what the loop returns. *)
Theorem C31_diverge_exact :
  forall ast g, grammar_from_ast ast = Ok g -> plain g -> forall hash t, make_tables hash g = Ok t ->
  forall tokens w, ended tokens w -> exists a, nth_error tokens 0 = Some a /\
  (parse_impl g t tokens = Diverge <-> forever g t tokens (parse_init a)) /\
  (parse_impl g t tokens <> Diverge -> exists n c, nsteps (parse_step g t tokens) n (parse_init a) c /\
     parse_step g t tokens c = inr (parse_impl g t tokens)).
Proof.
  intros ast g Hg [He Heof] hash t Ht tokens w Hend. destruct (grammar_from_ast_ok _ _ Hg) as (s & _ & W & Hst & _).
  destruct (parse_ends g _ W t (tables_auto g _ W Hst hash t Ht) He tokens w Hend Heof) as (a & Ea & H).
  exists a. split; auto. destruct H as [[E Hc]|(m & c & r & Hm & Er & E)].
  - split; [|tauto]. split; [|auto]. intros _. eapply cyclic_forever, Hc.
  - assert (Hnf : ~ forever g t tokens (parse_init a)) by (intros Hf; eapply forever_no_end; eauto).
    split; [|intros _; exists m, c; rewrite E; auto]. split; [|tauto]. intros E'. rewrite E' in E. subst r.
    exfalso. clear -Er. unfold parse_step in Er.
    destruct (ps_stack c) as [|q s]; [discriminate|]. destruct (tbl_get _ _ _) as [[|p|]|]; try discriminate.
    destruct (get_production g p) as [pr|]; [|discriminate]. destruct (_ <? _); [discriminate|].
    destruct (skipn _ _) as [|q' s']; [discriminate|]. destruct (tbl_get _ _ _); discriminate.
Qed.
Print Assumptions C31_diverge_exact.

(** Termination is false: unit productions in a cycle, whose conflict goes unnoticed, make the
    parser reduce for ever. *)
Theorem C31_terminates_refuted :
  exists ast g t tokens w a, tables_of ast g t /\ well_formed g /\ ended tokens w /\
    nth_error tokens 0 = Some a /\ forever g t tokens (parse_init a).
Proof.
  witness w31 Eg Et. exists [7; 1; 2; 4; 0], [7; 1; 2; 4], 7. split; [apply tables_of_any; auto|].
  assert (Hwf : well_formed g) by wf_ok Eg. split; [exact Hwf|].
  assert (Hend : ended [7; 1; 2; 4; 0] [7; 1; 2; 4]) by (split; [reflexivity|simpl; intuition discriminate]).
  split; [exact Hend|]. split; [reflexivity|].
  destruct (C31_diverge_exact _ _ Eg (proj1 Hwf) _ _ Et _ _ Hend) as (a & Ea & Hiff & _). injection Ea as <-.
  apply Hiff. clear Hiff Hwf Hend. open Eg Et. compute_ok.
Qed.
Print Assumptions C31_terminates_refuted.

(** It terminates when all transitions are in the tables; missing: the general case. *)
Theorem C31_terminates_partial :
  forall ast g, grammar_from_ast ast = Ok g -> plain g -> start_fresh g ->
  forall hash t, make_tables hash g = Ok t -> closed g t ->
  forall tokens w, ended tokens w -> exists a n c, nth_error tokens 0 = Some a /\
    nsteps (parse_step g t tokens) n (parse_init a) c /\ parse_step g t tokens c = inr (parse_impl g t tokens).
Proof.
  intros ast g Hg Hp Hf hash t Ht Hcl tokens w Hend.
  destruct (C31_diverge_exact _ _ Hg Hp _ _ Ht _ _ Hend) as (a & Ea & _ & H). destruct Hp as [He Heof].
  destruct (grammar_from_ast_ok _ _ Hg) as (s & _ & W & Hst & _).
  destruct H as (n & c & Hn & Hc); [|exists a, n, c; auto]. eapply parse_terminates; eauto.
Qed.
Print Assumptions C31_terminates_partial.

(** And, whatever the tables look like, for grammars in which no used symbol derives itself. *)
Theorem C31_acyclic_terminates_partial :
  forall ast g, grammar_from_ast ast = Ok g -> plain g ->
  (forall p pr A, reachable g p -> nth_error (g_prods g) p = Some pr -> In (SNon A) (p_syms pr) ->
     ~ exists v, derives1 g [SNon A] v /\ derives g v [SNon A]) ->
  forall hash t, make_tables hash g = Ok t ->
  forall tokens w, ended tokens w -> exists a n c, nth_error tokens 0 = Some a /\
    nsteps (parse_step g t tokens) n (parse_init a) c /\ parse_step g t tokens c = inr (parse_impl g t tokens).
Proof.
  intros ast g Hg [He Heof] Hac hash t Ht tokens w Hend. destruct (grammar_from_ast_ok _ _ Hg) as (s & _ & W & Hst & _).
  destruct (parse_ends g _ W t (tables_auto g _ W Hst hash t Ht) He tokens w Hend Heof) as (a & Ea & [[E Hc]|(m & c & r & Hm & Er & E)]).
  - exfalso. destruct Hc as (n & s' & i & a1 & tr & q0 & j & ps & ts & _ & _ & Hne & Hu).
    destruct (cycle_cyclic g _ W Hst hash t Ht _ _ _ _ Hu Hne) as (A & HA & q & k & Hq & pr & Hpr & Hx).
    destruct (make_tables_built _ _ _ _ W Ht) as (lr0 & m & B). destruct (st_lr g _ W hash t _ _ _ _ _ _ B Hq) as (I & HI & Hk & _).
    exact (Hac q pr A (lr_reachable g _ HI _ _ _ Hk) Hpr (nth_error_In _ _ Hx) HA).
  - exists a, m, c. rewrite E. auto.
Qed.
Print Assumptions C31_acyclic_terminates_partial.

(** A grammar meeting its hypothesis that is not closed: w28. *)
Example C31_nonvacuous : exists g t, tables_of w28 g t /\ well_formed g /\
  (forall p pr A, reachable g p -> nth_error (g_prods g) p = Some pr -> In (SNon A) (p_syms pr) ->
     ~ exists v, derives1 g [SNon A] v /\ derives g v [SNon A]) /\ ended [7; 1; 2; 4; 0] [7; 1; 2; 4].
Proof.
  destruct (grammar_from_ast w28) as [g| |] eqn:Eg; [|vm_compute in Eg; discriminate Eg..].
  destruct (make_tables ehash g) as [t| |] eqn:Et; [|vm_compute in Eg; injection Eg as <-; vm_compute in Et; discriminate Et..].
  exists g, t. split; [apply tables_of_any; auto|]. split; [wf_ok Eg|].
  split; [|split; [reflexivity|simpl; intuition discriminate]]. open Eg Et. intros p0 pr0 A _ _ _. revert A.
  apply (rank_acyclic _ (fun n => if eqb n [83; 39]%N then 1 else 0)); [apply eps_free_b_ok; reflexivity|].
  cbn [g_prods]. intros p B Hp Hs. repeat (destruct Hp as [<-|Hp]; [discriminate Hs || (injection Hs as <-; vm_compute; lia)|]). destruct Hp.
Qed.

(** ** C32 *)

(** Unconditionally: only an invalid token or an empty GOTO entry. *)
Theorem C32_failures :
  forall ast g, grammar_from_ast ast = Ok g -> forall hash t, make_tables hash g = Ok t ->
  forall tokens p, tokens <> [] -> parse_impl g t tokens = Panic p -> p = PInvalidToken \/ p = PGotoEmpty.
Proof.
  intros ast g Hg hash t Ht tokens p. destruct (grammar_from_ast_ok _ _ Hg) as (s & _ & W & Hst & _).
  apply fails_only. eapply tables_auto; eauto.
Qed.
Print Assumptions C32_failures.

(** That GOTO entries are never empty is false, even on a sentence. *)
Theorem C32_only_wrong_tokens_refuted :
  exists ast g t tokens w, tables_of ast g t /\ well_formed g /\ ended tokens w /\
    (forall st, find ap_start ast = Some st -> sentence g (ap_name st) w) /\
    parse_impl g t tokens = Panic PGotoEmpty.
Proof.
  witness w32 Eg Et. exists [7; 1; 3; 10; 4; 0], [7; 1; 3; 10; 4]. split; [apply tables_of_any; auto|].
  split; [wf_ok Eg|]. split; [split; [reflexivity|simpl; intuition discriminate]|]. open Eg Et. split; [|compute_ok].
  intros s Hs. vm_compute in Hs. injection Hs as <-. cbn [ap_name].
  set (tr := Node 1 [Leaf (SStr [117]%N); Node 4 [Leaf (SStr [99]%N); Node 6 [Node 7 [Leaf (SStr [110]%N)]; Leaf (SStr [121]%N)]]; Leaf (SStr [112]%N)]).
  match goal with |- sentence ?g ?n ?w => assert (H : parse_tree_b g n w tr = true) by compute_ok end.
  apply parse_tree_b_ok in H as (Ho & Hr & Hy).
  exists (yield tr). split; [exact Hy|]. split; [eapply tree_terminals; exact Ho|apply tree_derives; auto].
Qed.
Print Assumptions C32_only_wrong_tokens_refuted.

(** It holds when all transitions are in the tables; missing: the general case. *)
Theorem C32_only_wrong_tokens_partial :
  forall ast g, grammar_from_ast ast = Ok g -> start_fresh g -> forall hash t, make_tables hash g = Ok t -> closed g t ->
  forall tokens p, tokens <> [] -> parse_impl g t tokens = Panic p -> p = PInvalidToken.
Proof.
  intros ast g Hg Hf hash t Ht Hcl tokens p. destruct (grammar_from_ast_ok _ _ Hg) as (s & _ & W & Hst & _).
  apply closed_fails_only; auto. eapply tables_auto; eauto.
Qed.
Print Assumptions C32_only_wrong_tokens_partial.

Example C32_nonvacuous : exists g t, tables_of w_expr g t /\ start_fresh g /\ closed g t /\
  parse_impl g t [2; 1; 0] = Panic PInvalidToken.
Proof.
  destruct (grammar_from_ast w_expr) as [g| |] eqn:Eg; [|vm_compute in Eg; discriminate Eg..].
  destruct (make_tables ehash g) as [t| |] eqn:Et; [|vm_compute in Eg; injection Eg as <-; vm_compute in Et; discriminate Et..].
  exists g, t. split; [apply tables_of_any; auto|]. open Eg Et.
  split; [apply start_fresh_b_ok; reflexivity|]. split; [apply closed_b_ok; compute_ok|compute_ok].
Qed.

(** ** C33 *)

(** False: tables are returned for an ambiguous grammar. *)
Theorem C33_unambiguous_refuted :
  exists ast g t w tr tr', tables_of ast g t /\ well_formed g /\
    (forall st, find ap_start ast = Some st -> parse_tree g (ap_name st) w tr /\ parse_tree g (ap_name st) w tr') /\ tr <> tr'.
Proof.
  witness w33 Eg Et. exists [7; 1; 2; 4].
  exists (Node 1 [Leaf (SStr [117]%N); Node 4 [Node 6 [Leaf (SStr [99]%N)]]; Node 8 [Leaf (SStr [100]%N); Leaf (SStr [112]%N)]]).
  exists (Node 1 [Leaf (SStr [117]%N); Node 5 [Node 6 [Leaf (SStr [99]%N)]; Node 10 [Leaf (SStr [100]%N)]]; Node 7 [Leaf (SStr [112]%N)]]).
  split; [apply tables_of_any; auto|]. split; [wf_ok Eg|]. split; [|discriminate]. open Eg Et.
  intros s Hs. vm_compute in Hs. injection Hs as <-. cbn [ap_name]. split; apply parse_tree_b_ok; compute_ok.
Qed.
Print Assumptions C33_unambiguous_refuted.

(** It holds when all transitions are in the tables; missing: the general case. *)
Theorem C33_unambiguous_partial :
  forall ast g st, grammar_from_ast ast = Ok g -> find ap_start ast = Some st -> plain g -> start_fresh g ->
  forall hash t, make_tables hash g = Ok t -> closed g t ->
  forall w tr tr', parse_tree g (ap_name st) w tr -> parse_tree g (ap_name st) w tr' -> tr = tr'.
Proof.
  intros ast g s Hg Hs [He Heof] Hf hash t Ht Hcl w tr tr' H H'.
  destruct (grammar_from_ast_ok _ _ Hg) as (s' & Hs' & W & Hst & _). rewrite Hs in Hs'. injection Hs' as <-.
  eapply tree_unique; eauto. split; [reflexivity|]. intros H0. destruct H as (Ho & Hr & Hy).
  apply (no_eof g tr Heof Ho ltac:(congruence)). apply (in_map (nth_error (g_tokens g))) in H0. rewrite Hy in H0.
  pose proof (token_eof g _ W) as E0. unfold get_token in E0. rewrite E0 in H0. apply in_map_iff in H0 as (x & Ex & Hx). injection Ex as ->. exact Hx.
Qed.
Print Assumptions C33_unambiguous_partial.

(** In any case no sequence has two parse trees along which all transitions are there. *)
Theorem C33_moving_tree_unique :
  forall ast g st, grammar_from_ast ast = Ok g -> find ap_start ast = Some st -> plain g -> start_fresh g ->
  forall hash t, make_tables hash g = Ok t ->
  forall tokens w, ended tokens w -> forall tr tr' j j', parse_tree g (ap_name st) w tr -> moves g t 0 tr j ->
  parse_tree g (ap_name st) w tr' -> moves g t 0 tr' j' -> tr = tr' /\ j = j'.
Proof.
  intros ast g s Hg Hs [He Heof] Hf hash t Ht tokens w Hend tr tr' j j' H M H' M'.
  destruct (grammar_from_ast_ok _ _ Hg) as (s' & Hs' & W & Hst & _). rewrite Hs in Hs'. injection Hs' as <-.
  assert (tr = tr') as <- by (eapply moving_unique; eauto). split; auto. eapply moves_det; eauto.
Qed.
Print Assumptions C33_moving_tree_unique.

Example C33_nonvacuous : exists g t st tr, tables_of w_expr g t /\ find ap_start w_expr = Some st /\ well_formed g /\ closed g t /\
  parse_tree g (ap_name st) [2; 1; 2] tr.
Proof.
  destruct (grammar_from_ast w_expr) as [g| |] eqn:Eg; [|vm_compute in Eg; discriminate Eg..].
  destruct (make_tables ehash g) as [t| |] eqn:Et; [|vm_compute in Eg; injection Eg as <-; vm_compute in Et; discriminate Et..].
  eexists g, t, _, (Node 1 [Node 2 [Node 3 [Leaf (SStr [120]%N)]]; Leaf (SStr [43]%N); Node 3 [Leaf (SStr [120]%N)]]).
  split; [apply tables_of_any; auto|]. split; [reflexivity|]. split; [wf_ok Eg|]. open Eg Et.
  split; [apply closed_b_ok; compute_ok|]. apply parse_tree_b_ok. compute_ok.
Qed.
