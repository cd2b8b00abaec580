(** Property C60: states, lookaheads and transitions of the tables by rightmost derivations. *)
From Verif Require Import Base Grammar GrammarSpec GrammarProofs GrammarCheck First Item ItemSpec ItemProofs ItemPlain
  Table TableSpec MergeProofs TableProofs TableFacts Witness PropsTable Parse ParseSpec ParseCheck TreeFacts Auto ParseProofs
  ParseTerm ParseCycle ParseComplete PropsParse Report ReportSpec ReportProofs ReportExact PropsReport ViableSpec ViableProofs ViableTables ViableReport.

Local Ltac compute_ok := vm_compute; reflexivity.
Local Ltac open Eg Et := vm_compute in Eg; injection Eg as <-; vm_compute in Et; injection Et as <-.
Local Ltac wf_ok Eg := vm_compute in Eg; injection Eg as <-;
  split; [split; [apply eps_free_b_ok|apply eof_free_b_ok]|apply start_fresh_b_ok]; reflexivity.

(** The canonical collection has, for every viable prefix, the set of the items valid after it with
    their lookaheads, and nothing else.  Missing: grammars with unproductive symbols. *)
Theorem C60_collection_partial :
  forall ast g st, grammar_from_ast ast = Ok g -> find ap_start ast = Some st -> plain g -> all_productive g ->
  forall lr0, items g = Ok lr0 ->
  (forall s, In s lr0 -> exists u, viable g (ap_name st) u /\ forall p d k, has s p d k <-> valid g (ap_name st) u p d k) /\
  (forall u, viable g (ap_name st) u -> exists s, In s lr0 /\ forall p d k, has s p d k <-> valid g (ap_name st) u p d k).
Proof.
  intros ast g s Hg Hs [He Heof] Hp lr0 Hl.
  destruct (grammar_from_ast_ok _ _ Hg) as (s' & Hs' & W & _). rewrite Hs in Hs'. injection Hs' as <-.
  destruct (lr_final g _ W lr0 Hl) as (_ & _ & Hin & Hall & HG).
  pose proof (lr_at_iff g _ W He Heof Hp) as E. split.
  - intros i Hi. destruct (Hin i Hi) as (_ & I & HI & Hr). destruct (lr_code_std g _ W He HG I HI) as (J & HJ & Eq).
    destruct (state_lr_at g J HJ) as (u & -> & p & d & k & Hk). exists u. split; [exists p, d, k; apply E, Hk|].
    intros q e l. rewrite (Hr q e l), (Eq q e l). apply E.
  - intros u Hu. destruct (lr_std_code g _ W He HG _ (viable_state g _ W He Heof Hp u Hu)) as (J & HJ & Eq).
    destruct (Hall J HJ) as (i & Hi & Hr). exists i. split; auto. intros q e l. rewrite (Hr q e l), <- (Eq q e l). apply E.
Qed.
Print Assumptions C60_collection_partial.

(** The states of the tables stand for the viable prefixes: every state for at least one, every
    viable prefix has exactly one state.  Missing: as above. *)
Theorem C60_states_partial :
  forall ast g st, grammar_from_ast ast = Ok g -> find ap_start ast = Some st -> plain g -> all_productive g ->
  forall hash t, make_tables hash g = Ok t ->
  (forall i, i < length (t_states t) -> exists u, viable g (ap_name st) u /\ state_for g (ap_name st) t u i) /\
  (forall u, viable g (ap_name st) u -> exists i, i < length (t_states t) /\ state_for g (ap_name st) t u i /\
     forall j, state_for g (ap_name st) t u j -> j = i).
Proof.
  intros ast g s Hg Hs [He Heof] Hp hash t Ht.
  destruct (grammar_from_ast_ok _ _ Hg) as (s' & Hs' & W & Hst & _). rewrite Hs in Hs'. injection Hs' as <-. split.
  - intros i Hi. destruct (nth_error (t_states t) i) as [x|] eqn:Ex; [|apply nth_error_None in Ex; lia]. eapply state_some; eauto.
  - intros u Hu. destruct (some_state g _ W He Heof Hp hash t Ht u Hu) as [i Hi]. exists i. split; [|split; auto].
    + destruct (state_for_st g _ t u i Hu Hi) as [x Hx]. eapply nth_error_lt, Hx.
    + intros j Hj. eapply (state_unique g _ W hash t Ht u j i); eauto.
Qed.
Print Assumptions C60_states_partial.

(** The lookaheads of a state are exactly those of the prefixes it stands for, and the entries to
    reduce are exactly for those.  Missing: as above. *)
Theorem C60_lookaheads_partial :
  forall ast g st, grammar_from_ast ast = Ok g -> find ap_start ast = Some st -> plain g -> all_productive g ->
  forall hash t, make_tables hash g = Ok t ->
  (forall i p d k, ParseSpec.st t i p d k <-> exists u, state_for g (ap_name st) t u i /\ valid g (ap_name st) u p d k) /\
  (forall i p k, p <> 0 -> tbl_get (t_action t) i k = Some (Reduce p) <->
     exists u pr, state_for g (ap_name st) t u i /\ nth_error (g_prods g) p = Some pr /\ valid g (ap_name st) u p (length (p_syms pr)) k).
Proof.
  intros ast g s Hg Hs [He Heof] Hp hash t Ht.
  destruct (grammar_from_ast_ok _ _ Hg) as (s' & Hs' & W & Hst & _). rewrite Hs in Hs'. injection Hs' as <-.
  pose proof (st_valid g _ W He Heof Hp hash t Ht) as V. pose proof (tables_auto g _ W Hst hash t Ht) as A. split; [exact V|].
  intros i p k Hp0. split.
  - intros H. apply (a_reduce _ _ A) in H as (_ & d & (pr & Hpr & ->) & H). apply V in H as (u & Hu & H). exists u, pr. auto.
  - intros (u & pr & Hu & Hpr & H). rewrite (a_complete _ _ A i p (length (p_syms pr)) k).
    + replace (p =? 0) with false by (symmetry; apply Nat.eqb_neq, Hp0). rewrite andb_false_r. reflexivity.
    + apply V. eauto.
    + exists pr. auto.
Qed.
Print Assumptions C60_lookaheads_partial.

(** Wherever the tables lead, they lead to the right state; they lead along every viable prefix if
    no transition is missing (C28).  Missing: as above. *)
Theorem C60_walk_partial :
  forall ast g st, grammar_from_ast ast = Ok g -> find ap_start ast = Some st -> plain g -> start_fresh g -> all_productive g ->
  forall hash t, make_tables hash g = Ok t ->
  (forall u i, walks g t 0 u i -> state_for g (ap_name st) t u i) /\
  (closed g t -> forall u, viable g (ap_name st) u <-> exists i, walks g t 0 u i).
Proof.
  intros ast g s Hg Hs [He Heof] Hf Hp hash t Ht.
  destruct (grammar_from_ast_ok _ _ Hg) as (s' & Hs' & W & Hst & _). rewrite Hs in Hs'. injection Hs' as <-.
  split; [eapply walks_state; eauto|]. intros Hcl u. split; [eapply viable_walks; eauto|].
  intros [i Hi]. pose proof (walks_state g _ W Hst He Heof Hp hash t Ht Hf u i Hi) as Hu.
  pose proof (tables_auto g _ W Hst hash t Ht) as A.
  assert (Hn : exists p d k, ParseSpec.st t i p d k).
  { destruct Hi as [|u j x k j' _ _ _ Ha|u j B j' _ Ha].
    - exists 0, 0, 0. apply (a_init _ _ A).
    - destruct (a_shift _ _ A _ _ _ Ha) as (x' & _ & _ & _ & Htr). apply Htr.
    - apply (a_goto _ _ A) in Ha. apply Ha. }
  destruct Hn as (p & d & k & Hn). destruct (proj1 (Hu p d) (ex_intro _ k Hn)) as [k' Hk']. exists p, d, k'. exact Hk'.
Qed.
Print Assumptions C60_walk_partial.

(** What the list of valid tokens in a report means, with states merged or not: the parser is in the
    state of the symbols it has recognised, and lists exactly the tokens that can come next after
    one of the prefixes that share this state.  The second direction needs all transitions. *)
Theorem C56_listed_meaning_partial :
  forall ast g st, grammar_from_ast ast = Ok g -> find ap_start ast = Some st -> plain g -> start_fresh g -> all_productive g ->
  forall hash t, make_tables hash g = Ok t ->
  forall tokens w r, ended tokens w -> parse_report g t tokens = Some r ->
  exists i u l, symbols g (firstn (rp_pos r) w) l /\ derives g u l /\ state_for g (ap_name st) t u i /\
    (forall k, (exists ks, rp_valid r = Some ks /\ In k ks) ->
       exists u', state_for g (ap_name st) t u' i /\ comes_next g (ap_name st) u' k) /\
    (closed g t -> forall k u', state_for g (ap_name st) t u' i -> comes_next g (ap_name st) u' k ->
       exists ks, rp_valid r = Some ks /\ In k ks).
Proof.
  intros ast g s Hg Hs [He Heof] Hf Hp hash t Ht tokens w r Hend H.
  destruct (grammar_from_ast_ok _ _ Hg) as (s' & Hs' & W & Hst & _). rewrite Hs in Hs'. injection Hs' as <-.
  destruct (report_state g _ W Hst He Heof Hp hash t Ht Hf tokens w r Hend H) as (i & u & l & Hi & -> & Hu & Hl & Hd).
  exists i, u, l. split; auto. split; auto. split; auto. split.
  - intros k Hk. apply tbl_valid_get in Hk as [a Ha]. eapply entry_next; eauto.
  - intros Hcl k u' Hu' Hk. apply tbl_valid_get. eapply next_entry; eauto.
Qed.
Print Assumptions C56_listed_meaning_partial.

(** The conflicts of C26 and C27 are those of the rightmost derivations.  Missing: as above. *)
Theorem C27_conflict_meaning_partial :
  forall ast g st, grammar_from_ast ast = Ok g -> find ap_start ast = Some st -> plain g -> all_productive g ->
  (exists I, lr_state g (F_std g) I /\ conflict g (lalr_of g (F_std g) I)) <-> lalr_conflict g (ap_name st).
Proof.
  intros ast g s Hg Hs [He Heof] Hp.
  destruct (grammar_from_ast_ok _ _ Hg) as (s' & Hs' & W & Hst & _). rewrite Hs in Hs'. injection Hs' as <-.
  pose proof (lr_at_iff g _ W He Heof Hp) as E.
  assert (Ex : forall u q e, (exists k, lr_at g u q e k) <-> (exists k, valid g (ap_name s) u q e k)).
  { intros u q e. split; intros [k H]; exists k; apply E, H. }
  assert (Hof : forall I p d k, lr_state g (F_std g) I -> lalr_of g (F_std g) I p d k -> exists u, same_core I (lr_at g u) /\ valid g (ap_name s) u p d k).
  { intros I p d k HI (J & HJ & Hc & H). destruct (state_lr_at g J HJ) as (u & -> & _). exists u. split; auto. apply E, H. }
  split.
  - intros (I & HI & p & d & p' & d' & k & Hne & Hc & H & H').
    destruct (Hof I p d k HI H) as (u & Cu & Hu).
    assert (Hsame : forall v, same_core I (lr_at g v) -> same_items g (ap_name s) u v).
    { intros v Cv q e. rewrite <- !Ex, <- (Cu q e). apply Cv. }
    destruct H' as [[Hc' H']|(x & k' & Hx & Ht & Htk & H')]; destruct (Hof I _ _ _ HI H') as (v & Cv & Hv);
      exists u, v, p, d, p', d', k; (split; [apply Hsame, Cv|]); split; auto; split; auto; split; auto. right. exists x, k'. auto.
  - intros (u & v & p & d & p' & d' & k & Hsame & Hne & Hc & Hu & H'). exists (lr_at g u).
    assert (Hst' : forall w q e l, valid g (ap_name s) w q e l -> lr_state g (F_std g) (lr_at g w)).
    { intros w q e l Hw. apply lr_at_state. exists q, e, l. apply E, Hw. }
    assert (Hcore : same_core (lr_at g u) (lr_at g v)).
    { intros q e. rewrite !Ex. apply Hsame. }
    split; [eapply Hst', Hu|]. exists p, d, p', d', k. split; auto. split; auto. split.
    + exists (lr_at g u). split; [eapply Hst', Hu|]. split; [intros q e; tauto|]. apply E, Hu.
    + assert (Hin : forall q e l, valid g (ap_name s) v q e l -> lalr_of g (F_std g) (lr_at g u) q e l).
      { intros q e l Hv. exists (lr_at g v). split; [eapply Hst', Hv|]. split; auto. apply E, Hv. }
      destruct H' as [[Hc' Hv]|(x & k' & Hx & Ht & Htk & Hv)]; [left; auto|right; exists x, k'; auto].
Qed.
Print Assumptions C27_conflict_meaning_partial.

(** When tables are built, in these terms: always for LALR(1) grammars in which no prefix has two
    items asking for the same token, if the states can be computed at all; and then the grammar is
    LALR(1), if no transition is missing.  Missing: as above. *)
Theorem C27_tables_by_derivations_partial :
  forall ast g st, grammar_from_ast ast = Ok g -> find ap_start ast = Some st -> plain g -> all_productive g ->
  forall hash,
  (forall lr0, items g = Ok lr0 -> collision_free hash lr0 ->
     ~ lalr_conflict g (ap_name st) -> ~ same_shift g (ap_name st) -> exists t, make_tables hash g = Ok t) /\
  (forall t, make_tables hash g = Ok t -> closed g t -> ~ lalr_conflict g (ap_name st) /\ ~ same_shift g (ap_name st)).
Proof.
  intros ast g s Hg Hs Hpl Hp hash. pose proof Hpl as [He Heof].
  destruct (grammar_from_ast_ok _ _ Hg) as (s' & Hs' & W & Hst & _). rewrite Hs in Hs'. injection Hs' as <-.
  pose proof (lr_at_iff g _ W He Heof Hp) as E. split.
  - intros lr0 El Hc Hcf Hss. apply (C27_lalr_grammar_gets_tables_partial ast g Hg He hash lr0 El Hc).
    + intros I HI C. apply Hcf. apply (C27_conflict_meaning_partial ast g s Hg Hs Hpl Hp). eauto.
    + intros I p d k p' d' k' x HI (J & HJ & Cj & Hj) (J' & HJ' & Cj' & Hj') Hx Hx' Ht.
      destruct (ord_dec (p, d) (p', d')) as [|Hne]; auto. exfalso. apply Hss.
      destruct (state_lr_at g J HJ) as (u & -> & _).
      destruct (proj1 (Cj p' d')) as [k2 H2]; [apply Cj'; eauto|].
      exists u, p, d, k, p', d', k2, x. split; [apply E, Hj|]. split; [apply E, H2|]. auto.
  - intros t Ht Hcl. pose proof (tables_auto g _ W Hst hash t Ht) as A.
    pose proof (st_valid g _ W He Heof Hp hash t Ht) as V.
    assert (Hi : forall u p d k, valid g (ap_name s) u p d k -> exists i, state_for g (ap_name s) t u i /\ ParseSpec.st t i p d k).
    { intros u p d k Hu. destruct (some_state g _ W He Heof Hp hash t Ht u) as [i Hi]; [exists p, d, k; auto|]. exists i. split; auto.
      apply V. eauto. }
    split.
    + intros (u & v & p & d & p' & d' & k & Hsame & Hne & Hc & Hu & H').
      destruct (Hi u p d k Hu) as (i & Si & Hst1).
      assert (Sv : state_for g (ap_name s) t v i) by (intros q e; rewrite (Si q e); apply Hsame).
      destruct H' as [[Hc' Hv]|(x & k' & Hx & Hxt & Htk & Hv)].
      * apply Hne. eapply (a_one _ _ A i p d p' d' k); eauto. apply V. eauto.
      * assert (Hst2 : ParseSpec.st t i p' d' k') by (apply V; eauto).
        destruct (proj1 (Hcl i p' d' k' x Hst2 Hx) Hxt k Htk) as [j Hj].
        rewrite (a_complete _ _ A i p d k Hst1 Hc) in Hj. destruct ((k =? 0) && (p =? 0)); discriminate.
    + intros (u & p & d & k & p' & d' & k' & x & Hu & Hu' & Hne & Hx & Hx' & Hxt). apply Hne.
      destruct (Hi u p d k Hu) as (i & Si & Hst1).
      assert (Hst2 : ParseSpec.st t i p' d' k') by (apply V; eauto).
      destruct Hst1 as (si & Hsi & Hk). destruct Hst2 as (si' & Hsi' & Hk'). rewrite Hsi in Hsi'. injection Hsi' as <-.
      destruct (C26_states_are_lalr _ _ Hg He _ _ Ht) as (H1 & _). destruct (H1 i si Hsi) as (I & HI & Hq).
      destruct (proj1 (C27_tables_built_iff _ _ Hg He hash)) as (lr0 & _ & _ & Hone); [eauto|].
      destruct (proj1 (C28_transitions_iff _ _ Hg He hash t Ht i si p d k x Hsi Hk Hx) Hxt) as (kx & Htk & Hfnd).
      assert (Hf : found g (F_std g) (lalr_of g (F_std g) I) x).
      { apply (found_eq g _ _ x Hq). apply Hfnd. eapply Hcl; eauto. exists si. eauto. }
      apply (Hone I HI p d p' d' kx); right; exists x; repeat (split; [assumption|]); (split; [|exact Hf]).
      * exists k. apply Hq, Hk.
      * exists k'. apply Hq, Hk'.
Qed.
Print Assumptions C27_tables_by_derivations_partial.

(** S -> A B | "c"; A -> "a"; B -> "b" B. *)
Definition w60 : list aprod := [PS 83 [[V 65; V 66]; [T 99]]; P 65 [[T 97]]; P 66 [[T 98; V 66]]].

(** With an unproductive symbol there are states no sentence leads to, and entries for them. *)
Theorem C60_unproductive_refuted :
  exists ast g t st i p d k, tables_of ast g t /\ find ap_start ast = Some st /\ well_formed g /\ closed g t /\
    ParseSpec.st t i p d k /\ forall u, ~ valid g (ap_name st) u p d k.
Proof.
  exists w60. destruct (grammar_from_ast w60) as [g| |] eqn:Eg; [|vm_compute in Eg; discriminate Eg..].
  destruct (make_tables ehash g) as [t| |] eqn:Et; [|vm_compute in Eg; injection Eg as <-; vm_compute in Et; discriminate Et..].
  exists g, t. eexists. exists 0, 3, 0, 2. split; [apply tables_of_any; auto|]. split; [reflexivity|]. split; [wf_ok Eg|].
  open Eg Et. split; [apply closed_b_ok; compute_ok|]. split.
  - eexists. split; [reflexivity|]. eexists. split; [cbn; tauto|cbn; tauto].
  - intros u (pr & a & w & Hp & _ & _ & [(C & _)|H] & Hw & _); [discriminate|]. injection Hp as <-. cbn [p_name] in H.
    match type of H with rderives ?g0 _ _ => set (g := g0) in * end.
    assert (Hlast : forall a0 N w0 l', terminals w0 -> a0 ++ SNon N :: w0 = l' ++ [SNon [66%N]] -> N = [66%N] /\ w0 = [] /\ a0 = l').
    { intros a0 N w0 l' Hw0 E. destruct w0 as [|x w0] using rev_ind.
      - apply app_inj_tail in E as [-> E]. injection E as ->. auto.
      - exfalso. clear IHw0. change (a0 ++ SNon N :: w0 ++ [x]) with (a0 ++ (SNon N :: w0) ++ [x]) in E. rewrite app_assoc in E.
        apply app_inj_tail in E as [_ ->]. apply Forall_app in Hw0 as [_ Hw0]. inversion Hw0 as [|? ? C _]. eapply C. reflexivity. }
    assert (G : forall l, rderives g [SNon [83%N]] l -> l = [SNon [83%N]] \/ l = [SStr [99%N]] \/ exists l', l = l' ++ [SNon [66%N]]).
    { intros l. induction 1 as [|a0 N body w0 _ IH (q & Hq & Hn & Hb) Hw0]; auto. right. destruct IH as [E|[E|[l' E]]].
      - destruct a0 as [|y a0]; [|injection E as _ E; destruct a0; discriminate E]. injection E as -> ->.
        repeat (destruct Hq as [<-|Hq]; [cbn in Hn, Hb; first [discriminate Hn|subst body]|]); [..|destruct Hq].
        + right. exists [SNon [65%N]]. reflexivity.
        + left. reflexivity.
      - destruct a0 as [|y a0]; [discriminate E|injection E as _ E; destruct a0; discriminate E].
      - apply Hlast in E as (-> & -> & ->); auto.
        repeat (destruct Hq as [<-|Hq]; [cbn in Hn, Hb; first [discriminate Hn|subst body]|]); [..|destruct Hq].
        right. exists (l' ++ [SStr [98%N]]). rewrite <- app_assoc. reflexivity. }
    apply G in H as [E|[E|[l' E]]].
    + destruct a as [|y a]; [discriminate E|injection E as _ E; destruct a; discriminate E].
    + destruct a as [|y a]; [discriminate E|injection E as _ E; destruct a; discriminate E].
    + apply Hlast in E as (C & _); [discriminate C|exact Hw].
Qed.
Print Assumptions C60_unproductive_refuted.

(** S -> C C | "x"; C -> "c" C | "d" meets all hypotheses.  After "c" "c" "d" the rule C -> "d" is
    to be applied before "c" or "d", after C "d" before the end; the two prefixes share a state,
    which therefore has all three lookaheads. *)
Example C60_nonvacuous :
  exists g t st lr0, tables_of w56 g t /\ find ap_start w56 = Some st /\ well_formed g /\ all_productive g /\ closed g t /\ items g = Ok lr0 /\
    exists i, walks g t 0 [SStr [99]%N; SStr [99]%N; SStr [100]%N] i /\ walks g t 0 [SNon [67]%N; SStr [100]%N] i /\
      ParseSpec.st t i 4 1 0 /\ ParseSpec.st t i 4 1 1 /\ length lr0 = 11 /\ length (t_states t) = 8.
Proof.
  destruct (grammar_from_ast w56) as [g| |] eqn:Eg; [|vm_compute in Eg; discriminate Eg..].
  destruct (make_tables ehash g) as [t| |] eqn:Et; [|vm_compute in Eg; injection Eg as <-; vm_compute in Et; discriminate Et..].
  destruct (items g) as [lr0| |] eqn:El; [|vm_compute in Eg; injection Eg as <-; vm_compute in El; discriminate El..].
  exists g, t. eexists. exists lr0. split; [apply tables_of_any; auto|]. split; [reflexivity|]. split; [wf_ok Eg|].
  open Eg Et. vm_compute in El. injection El as <-.
  split; [set (C := Node 4 [Leaf (SStr [100]%N)]); apply (productive_b_ok _ [C; Node 1 [C; C]]); compute_ok|].
  split; [apply closed_b_ok; compute_ok|]. split; [reflexivity|].
  cbn [t_states length].
  assert (Hn : forall s, terminal (SStr s)) by (intros s n; discriminate).
  eexists. split; [|split; [|split; [|split; [|split; reflexivity]]]].
  - eapply (wk_shift _ _ 0 [SStr [99]%N; SStr [99]%N] _ (SStr [100]%N) 2); [|apply Hn|apply tok_idx; reflexivity|].
    + eapply (wk_shift _ _ 0 [SStr [99]%N] _ (SStr [99]%N) 1); [|apply Hn|apply tok_idx; reflexivity|].
      * eapply (wk_shift _ _ 0 [] _ (SStr [99]%N) 1); [constructor|apply Hn|apply tok_idx; reflexivity|reflexivity].
      * reflexivity.
    + reflexivity.
  - eapply (wk_shift _ _ 0 [SNon [67]%N] _ (SStr [100]%N) 2); [|apply Hn|apply tok_idx; reflexivity|].
    + eapply (wk_goto _ _ 0 [] _ [67]%N); [constructor|reflexivity].
    + reflexivity.
  - eexists. split; [reflexivity|]. eexists. split; [cbn; tauto|cbn; tauto].
  - eexists. split; [reflexivity|]. eexists. split; [cbn; tauto|cbn; tauto].
Qed.

(** For the tokens "d" "x" of the same grammar: after "d" the end is listed as valid although it cannot
    come (C56_listed_can_follow_refuted): it can after C "d", which shares the state. *)
Example C56_listed_meaning_nonvacuous :
  exists g t st r, tables_of w56 g t /\ find ap_start w56 = Some st /\ well_formed g /\ all_productive g /\ closed g t /\
    ended [2; 3; 0] [2; 3] /\ parse_report g t [2; 3; 0] = Some r /\ rp_valid r = Some [0; 1; 2] /\
    comes_next g (ap_name st) [SNon [67]%N; SStr [100]%N] 0.
Proof.
  destruct (grammar_from_ast w56) as [g| |] eqn:Eg; [|vm_compute in Eg; discriminate Eg..].
  destruct (make_tables ehash g) as [t| |] eqn:Et; [|vm_compute in Eg; injection Eg as <-; vm_compute in Et; discriminate Et..].
  exists g, t. eexists _, _. split; [apply tables_of_any; auto|]. split; [reflexivity|]. split; [wf_ok Eg|]. open Eg Et.
  split; [set (C := Node 4 [Leaf (SStr [100]%N)]); apply (productive_b_ok _ [C; Node 1 [C; C]]); compute_ok|].
  split; [apply closed_b_ok; compute_ok|]. split; [split; [reflexivity|simpl; intuition discriminate]|]. split; [compute_ok|]. split; [reflexivity|].
  exists []. split; [|split; [constructor|reflexivity]]. cbn [ap_name app].
  apply (rd_step _ _ [SNon [67]%N] [67]%N [SStr [100]%N] []); [|eexists; split; [do 4 right; left; reflexivity|split; reflexivity]|constructor].
  apply (rd_step _ _ [] [83]%N [SNon [67]%N; SNon [67]%N] []); [apply rd_refl|eexists; split; [right; left; reflexivity|split; reflexivity]|constructor].
Qed.

(** S -> C C | "x"; C -> "c" C | "d" has no conflict and no token asked for twice; its tables are built. *)
Example C27_by_derivations_nonvacuous :
  exists g t st lr0, tables_of w56 g t /\ find ap_start w56 = Some st /\ plain g /\ all_productive g /\ items g = Ok lr0 /\
    collision_free ehash lr0 /\ closed g t /\ ~ lalr_conflict g (ap_name st) /\ ~ same_shift g (ap_name st).
Proof.
  destruct (grammar_from_ast w56) as [g| |] eqn:Eg; [|vm_compute in Eg; discriminate Eg..].
  destruct (make_tables ehash g) as [t| |] eqn:Et; [|vm_compute in Eg; injection Eg as <-; vm_compute in Et; discriminate Et..].
  destruct (items g) as [lr0| |] eqn:El; [|vm_compute in Eg; injection Eg as <-; vm_compute in El; discriminate El..].
  exists g, t. eexists. exists lr0. split; [apply tables_of_any; auto|]. split; [reflexivity|].
  assert (Hpl : plain g) by (vm_compute in Eg; injection Eg as <-; split; [apply eps_free_b_ok|apply eof_free_b_ok]; reflexivity).
  assert (Hpr : all_productive g).
  { vm_compute in Eg; injection Eg as <-. set (C := Node 4 [Leaf (SStr [100]%N)]). apply (productive_b_ok _ [C; Node 1 [C; C]]); compute_ok. }
  assert (Hcl : closed g t) by (open Eg Et; apply closed_b_ok; compute_ok).
  split; [exact Hpl|]. split; [exact Hpr|]. split; [exact El|]. split; [apply ehash_free|]. split; [exact Hcl|].
  eapply (proj2 (C27_tables_by_derivations_partial w56 g _ Eg eq_refl Hpl Hpr ehash) t Et Hcl).
Qed.

(** S -> A | B; A -> "a"; B -> "a" has one: after "a", at the end, both rules could be applied. *)
Definition w27c : list aprod := [PS 83 [[V 65]; [V 66]]; P 65 [[T 97]]; P 66 [[T 97]]].
Example C27_conflict_nonvacuous :
  exists g st, grammar_from_ast w27c = Ok g /\ find ap_start w27c = Some st /\ plain g /\ all_productive g /\ lalr_conflict g (ap_name st) /\
    make_tables ehash g = Panic PConflict.
Proof.
  destruct (grammar_from_ast w27c) as [g| |] eqn:Eg; [|vm_compute in Eg; discriminate Eg..].
  exists g. eexists. split; [reflexivity|]. split; [reflexivity|]. vm_compute in Eg. injection Eg as <-.
  split; [split; [apply eps_free_b_ok|apply eof_free_b_ok]; reflexivity|].
  split; [set (A := Node 3 [Leaf (SStr [97]%N)]); set (B := Node 4 [Leaf (SStr [97]%N)]); apply (productive_b_ok _ [A; B; Node 1 [A]]); compute_ok|].
  split; [|compute_ok].
  exists [SStr [97]%N], [SStr [97]%N], 3, 1, 4, 1, 0. split; [intros p d; reflexivity|]. split; [discriminate|].
  split; [eexists; split; reflexivity|]. split.
  - eexists _, [], []. split; [reflexivity|]. split; [cbn; lia|]. split; [reflexivity|]. split; [|split; [constructor|reflexivity]]. right.
    apply (rd_step _ _ [] [83]%N [SNon [65]%N] []); [apply rd_refl|eexists; split; [right; left; reflexivity|split; reflexivity]|constructor].
  - left. split; [eexists; split; reflexivity|].
    eexists _, [], []. split; [reflexivity|]. split; [cbn; lia|]. split; [reflexivity|]. split; [|split; [constructor|reflexivity]]. right.
    apply (rd_step _ _ [] [83]%N [SNon [66]%N] []); [apply rd_refl|eexists; split; [do 2 right; left; reflexivity|split; reflexivity]|constructor].
Qed.
