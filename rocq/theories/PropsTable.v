(** Properties C25-C28: merging of states and the parsing tables. *)
From Verif Require Import Base Grammar GrammarSpec GrammarProofs GrammarCheck First Item ItemSpec ItemProofs ItemPlain
  Table TableSpec MergeProofs TableProofs TableFacts Witness.

Local Ltac compute_ok := vm_compute; reflexivity.

(** ** C25 *)

(** Whatever the hash function: if merging returns, every LR(1) state has one LALR state, two
    share it exactly when their cores are equal, lookaheads are the unions over the members,
    every LALR state has a member and the first state stays first. *)
Theorem C25_merge_partition :
  forall hash sets lalr m, (forall s, In s sets -> wf_set s) -> merge_cores hash sets = Ok (lalr, m) ->
  (forall i s, nth_error sets i = Some s -> exists j t, map_get i m = Some j /\ nth_error lalr j = Some t) /\
  (forall i j, map_get i m = Some j -> i < length sets) /\
  (forall i i' s s' j j', nth_error sets i = Some s -> nth_error sets i' = Some s' ->
     map_get i m = Some j -> map_get i' m = Some j' -> (j = j' <-> same_core (has s) (has s'))) /\
  (forall j t, nth_error lalr j = Some t -> wf_set t /\ (exists i, map_get i m = Some j) /\
     forall p d k, has t p d k <-> exists i s, map_get i m = Some j /\ nth_error sets i = Some s /\ has s p d k) /\
  (sets <> [] -> map_get 0 m = Some 0).
Proof.
  intros hash sets lalr m Hw E.
  destruct (merge_cores_spec hash sets Hw) as [(lalr' & m' & E' & Hm & _)|[[p E'] _]]; rewrite E in E'; [|discriminate].
  injection E' as <- <-. split; [|split; [|split; [|split]]].
  - intros i s Hs. destruct (mg_total _ _ _ Hm i s Hs) as (j & t & H1 & H2 & _). eauto.
  - intros i j H. destruct (mg_source _ _ _ Hm i j H) as (s & _ & Hs & _). apply nth_error_lt in Hs. exact Hs.
  - intros i i' s s' j j' Hs Hs' Hj Hj'. rewrite (mg_same _ _ _ Hm i i' s s' j j' Hs Hs' Hj Hj').
    symmetry. apply same_core_sets; try (apply Hw; eauto using nth_error_In); intros p d k; reflexivity.
  - intros j t Hj. destruct (mg_onto _ _ _ Hm j t Hj) as [H1 H2]. split; [exact H1|]. split; [exact H2|].
    apply (mg_has _ _ _ Hm j t Hj).
  - apply (mg_zero _ _ _ Hm).
Qed.
Print Assumptions C25_merge_partition.

(** It returns exactly when no two different cores have the same hash; otherwise it panics. *)
Theorem C25_merge_returns :
  forall hash sets, (forall s, In s sets -> wf_set s) ->
  (collision_free hash sets -> exists lalr m, merge_cores hash sets = Ok (lalr, m)) /\
  (~ collision_free hash sets -> exists p, merge_cores hash sets = Panic p).
Proof.
  intros hash sets Hw. destruct (merge_cores_spec hash sets Hw) as [(lalr & m & E & Hm & Hcf)|[[p E] (i & j & s & t & H1 & H2 & H3 & H4)]].
  - split; [eauto|tauto].
  - split; [|eauto]. intros HC. exfalso. apply H4. apply (HC s t); eauto using nth_error_In.
Qed.
Print Assumptions C25_merge_returns.

(** The result does not depend on which collision-free hash function is used. *)
Theorem C25_hash_irrelevant :
  forall h1 h2 sets, collision_free h1 sets -> collision_free h2 sets -> merge_cores h1 sets = merge_cores h2 sets.
Proof. exact merge_cores_indep. Qed.
Print Assumptions C25_hash_irrelevant.

Example C25_nonvacuous : exists g lr0 lalr m, grammar_from_ast w_cc = Ok g /\ items g = Ok lr0 /\
  (forall s, In s lr0 -> wf_set s) /\ collision_free ehash lr0 /\ merge_cores ehash lr0 = Ok (lalr, m) /\
  length lr0 = 10 /\ length lalr = 7.
Proof.
  destruct (grammar_from_ast w_cc) as [g| |] eqn:Eg; [|vm_compute in Eg; discriminate Eg..].
  destruct (items g) as [lr0| |] eqn:El; [|vm_compute in Eg; injection Eg as <-; vm_compute in El; discriminate El..].
  destruct (grammar_from_ast_ok _ _ Eg) as (st & _ & W & _).
  destruct (merge_cores ehash lr0) as [[lalr m]| |] eqn:Em.
  - exists g, lr0, lalr, m. split; auto. split; auto. split; [exact (lr_wf g _ W lr0 El)|].
    split; [apply ehash_free|]. split; auto.
    vm_compute in Eg. injection Eg as <-. vm_compute in El. injection El as <-. vm_compute in Em. injection Em as <- <-. split; reflexivity.
  - vm_compute in Eg. injection Eg as <-. vm_compute in El. injection El as <-. vm_compute in Em. discriminate Em.
  - vm_compute in Eg. injection Eg as <-. vm_compute in El. injection El as <-. vm_compute in Em. discriminate Em.
Qed.

(** ** C26 *)

(** The states of the tables are exactly the LALR states, once each. *)
Theorem C26_states_are_lalr :
  forall ast g, grammar_from_ast ast = Ok g -> eps_free g -> forall hash t, make_tables hash g = Ok t ->
  (forall i s, nth_error (t_states t) i = Some s ->
     exists I, lr_state g (F_std g) I /\ set_eq (has s) (lalr_of g (F_std g) I)) /\
  (forall I, lr_state g (F_std g) I -> exists i s, nth_error (t_states t) i = Some s /\ set_eq (has s) (lalr_of g (F_std g) I)) /\
  (forall i i' s s', nth_error (t_states t) i = Some s -> nth_error (t_states t) i' = Some s' ->
     same_core (has s) (has s') -> i = i') /\
  (exists s, nth_error (t_states t) 0 = Some s /\ same_core (has s) (clo g (F_std g) init_set)).
Proof.
  intros ast g Hg He hash t H. destruct (grammar_from_ast_ok _ _ Hg) as (st & _ & W & _).
  destruct (make_tables_built _ _ _ _ W H) as (lr0 & m & B). pose proof (b_items _ _ _ _ _ B) as El. pose proof (b_merged _ _ _ _ _ B) as Hm.
  split; [|split; [|split]].
  - intros i s Hs. destruct (lalr_std_in g _ W He lr0 _ m El Hm i s Hs) as (I & HI & Hq & _). eauto.
  - intros I HI. destruct (lalr_std_all g _ W He lr0 _ m El Hm I HI) as (i & s & Hs & Hq & _). eauto.
  - intros i i' s s' Hs Hs' Hc. apply (lalr_core lr0 _ m Hm i i' s s' Hs Hs').
    eapply same_core_sets; [| | | |exact Hc];
      try (eapply (lalr_wf lr0 _ m Hm); eauto using nth_error_In); intros p d k; reflexivity.
  - destruct (lr_zero g _ W lr0 El _ m Hm) as (i0 & H0 & Hr & Hz).
    destruct (mg_source _ _ _ Hm 0 0 Hz) as (s0 & s & E0 & Hs). rewrite H0 in E0. injection E0 as <-.
    destruct (lalr_member lr0 _ m Hm 0 0 i0 s Hz H0 Hs) as [Ec _].
    exists s. split; auto. apply (same_core_sets s i0); auto.
    + eapply (lalr_wf lr0 _ m Hm); eauto using nth_error_In.
    + eapply (lr_wf g _ W lr0 El); eauto using nth_error_In.
    + intros p d k; reflexivity.
    + destruct (lr_final g _ W lr0 El) as (_ & _ & _ & _ & HG).
      intros p d k. rewrite (Hr p d k). apply (clo_std g _ W He). apply HG. constructor.
Qed.
Print Assumptions C26_states_are_lalr.

(** Every ACTION and GOTO entry is justified by an item of its state. *)
Theorem C26_entries_justified :
  forall ast g, grammar_from_ast ast = Ok g -> eps_free g -> forall hash t, make_tables hash g = Ok t ->
  (forall i k a, tbl_get (t_action t) i k = Some a -> exists s, nth_error (t_states t) i = Some s /\
     match a with
     | Accept => k = 0 /\ exists d, complete g 0 d /\ has s 0 d 0
     | Reduce p => ~ (k = 0 /\ p = 0) /\ exists d, complete g p d /\ has s p d k
     | Shift j => exists x p d k', has s p d k' /\ sym_at g p d x /\ terminal x /\ tok g k x /\
         exists s', nth_error (t_states t) j = Some s' /\
           same_core (clo g (F_std g) (move g (has s) x)) (has s') /\
           forall p d k, clo g (F_std g) (move g (has s) x) p d k -> has s' p d k
     end) /\
  (forall i A j, tbl_get (t_goto t) i A = Some j -> exists s p d k', nth_error (t_states t) i = Some s /\
     has s p d k' /\ sym_at g p d (SNon A) /\
     exists s', nth_error (t_states t) j = Some s' /\
       same_core (clo g (F_std g) (move g (has s) (SNon A))) (has s') /\
       forall p d k, clo g (F_std g) (move g (has s) (SNon A)) p d k -> has s' p d k).
Proof.
  intros ast g Hg He hash t H. destruct (grammar_from_ast_ok _ _ Hg) as (st & _ & W & _).
  destruct (make_tables_built _ _ _ _ W H) as (lr0 & m & B). pose proof (b_items _ _ _ _ _ B) as El. pose proof (b_merged _ _ _ _ _ B) as Hm.
  split.
  - intros i k a Ha. apply (b_action _ _ _ _ _ B) in Ha as (s & p & d & Hs & [(Hc & Hh & ->)|(x & j & Hx & Ht & Htk & [k' Hk'] & Htg & ->)]); exists s; (split; [exact Hs|]).
    + destruct ((k =? 0) && (p =? 0)) eqn:E.
      * apply andb_true_iff in E as [E1 E2]. apply Nat.eqb_eq in E1, E2. subst. eauto.
      * split; [|eauto]. intros [-> ->]. discriminate.
    + exists x, p, d, k'. split; auto. split; auto. split; auto. split; auto.
      apply (target_core g _ W He lr0 _ m El Hm s x j); eauto using nth_error_In.
  - intros i A j Ha. apply (b_goto _ _ _ _ _ B) in Ha as (s & Hs & _ & Htg).
    assert (Hin : In s (t_states t)) by eauto using nth_error_In.
    destruct (target_core g _ W He lr0 _ m El Hm s (SNon A) j Hin Htg) as (s' & Hs' & Hc & Hi).
    assert (Hne : exists p d k, move g (has s) (SNon A) p d k).
    { destruct (lalr_nonempty g _ W lr0 El _ m Hm s' (nth_error_In _ _ Hs')) as (p & d & k & Hk).
      destruct (proj2 (Hc p d) (ex_intro _ k Hk)) as [k' Hk']. apply clo_single in Hk' as (p0 & d0 & k0 & H0 & _). eauto. }
    destruct Hne as (p & d & k & d' & -> & Hh & Hx). exists s, p, d', k. repeat (split; [assumption|]). exists s'. auto.
Qed.
Print Assumptions C26_entries_justified.

(** Every complete item has its entry for each lookahead, so two complete items of a state never
    share a lookahead. *)
Theorem C26_complete_items_reduce :
  forall ast g, grammar_from_ast ast = Ok g -> forall hash t, make_tables hash g = Ok t ->
  forall i s p d k, nth_error (t_states t) i = Some s -> complete g p d -> has s p d k ->
  tbl_get (t_action t) i k = Some (if (k =? 0) && (p =? 0) then Accept else Reduce p) /\
  forall p' d', complete g p' d' -> has s p' d' k -> (p, d) = (p', d').
Proof.
  intros ast g Hg hash t H i s p d k Hs Hc Hh. destruct (grammar_from_ast_ok _ _ Hg) as (st & _ & W & _).
  destruct (make_tables_built _ _ _ _ W H) as (lr0 & m & B). split.
  - apply (b_action _ _ _ _ _ B). exists s, p, d. split; auto. left. auto.
  - intros p' d' Hc' Hh'.
    eapply (b_one _ _ _ _ _ B i s p d _ p' d' _ k Hs); left; split; auto.
Qed.
Print Assumptions C26_complete_items_reduce.

(** That a state with two actions for one token is never silently resolved is false: when the
    shift's target is not found, the reduce wins without a word. *)
Theorem C26_no_silent_resolution_refuted :
  exists ast g, grammar_from_ast ast = Ok g /\ plain g /\
    (exists I, lr_state g (F_std g) I /\ conflict g (lalr_of g (F_std g) I)) /\
    exists t, make_tables ehash g = Ok t /\
    forall hash lr0, items g = Ok lr0 -> collision_free hash lr0 -> make_tables hash g = Ok t.
Proof.
  exists w33. destruct (grammar_from_ast w33) as [g| |] eqn:Eg; [|vm_compute in Eg; discriminate Eg..].
  exists g. split; auto. destruct (grammar_from_ast_ok _ _ Eg) as (st & _ & W & _).
  assert (Hp : plain g).
  { vm_compute in Eg. injection Eg as <-. split; [apply eps_free_b_ok|apply eof_free_b_ok]; reflexivity. }
  split; [exact Hp|]. destruct Hp as [He _].
  destruct (make_tables ehash g) as [t| |] eqn:Et; [|vm_compute in Eg; injection Eg as <-; vm_compute in Et; discriminate Et..].
  split.
  - destruct (C26_states_are_lalr _ _ Eg He _ _ Et) as (H1 & _).
    destruct (nth_error (t_states t) 5) as [s|] eqn:Es;
      [|vm_compute in Eg; injection Eg as <-; vm_compute in Et; injection Et as <-; discriminate Es].
    destruct (H1 5 s Es) as (I & HI & Hq). exists I. split; auto.
    vm_compute in Eg. injection Eg as <-. vm_compute in Et. injection Et as <-. vm_compute in Es. injection Es as <-.
    exists 4, 1, 10, 0, 2. split; [discriminate|]. split; [eexists; split; reflexivity|].
    split; [apply Hq; eexists; split; [left; reflexivity|simpl; tauto]|]. right.
    exists (SStr [100]%N), 2. split; [eexists; split; reflexivity|]. split; [intros n; discriminate|].
    split; [apply tok_idx; reflexivity|]. apply Hq. eexists. split; [right; right; left; reflexivity|simpl; tauto].
  - exists t. split; auto. intros hash lr0 El Hc. rewrite <- Et. eapply make_tables_indep; eauto. apply ehash_free.
Qed.
Print Assumptions C26_no_silent_resolution_refuted.

(** It holds when the shift's target is found. *)
Theorem C26_no_silent_resolution_partial :
  forall ast g, grammar_from_ast ast = Ok g -> eps_free g -> forall hash t, make_tables hash g = Ok t ->
  forall I, lr_state g (F_std g) I ->
  (forall p d k x, lalr_of g (F_std g) I p d k -> sym_at g p d x -> terminal x -> found g (F_std g) (lalr_of g (F_std g) I) x) ->
  ~ conflict g (lalr_of g (F_std g) I).
Proof.
  intros ast g Hg He hash t H I HI Hf (p & d & p' & d' & k & Hne & Hc & Hk & H2).
  destruct (grammar_from_ast_ok _ _ Hg) as (st & _ & W & _).
  destruct (make_tables_built _ _ _ _ W H) as (lr0 & m & B). pose proof (b_items _ _ _ _ _ B) as El. pose proof (b_merged _ _ _ _ _ B) as Hm.
  apply Hne. apply (proj1 (one_each_std g _ W He lr0 _ m El Hm) (b_one _ _ _ _ _ B) I HI p d p' d' k).
  - left. auto.
  - destruct H2 as [[Hc' Hk']|(x & k' & Hx & Ht & Htk & Hk')]; [left; auto|]. right. exists x.
    repeat (split; [assumption|]). split; eauto.
Qed.
Print Assumptions C26_no_silent_resolution_partial.

Example C26_nonvacuous : exists g t, grammar_from_ast w_cc = Ok g /\ plain g /\ make_tables ehash g = Ok t /\
  length (t_states t) = 7 /\ tbl_get (t_action t) 0 1 = Some (Shift 4) /\ tbl_get (t_goto t) 0 [83]%N = Some 1.
Proof.
  eexists _, _. split; [compute_ok|]. split; [split; [apply eps_free_b_ok|apply eof_free_b_ok]; reflexivity|].
  split; [compute_ok|]. split; [reflexivity|]. split; reflexivity.
Qed.

(** ** C27 *)

(** False: two items of a state with the same terminal after the dot make the code report a
    conflict, in a grammar without any. *)
Theorem C27_lalr_grammar_gets_tables_refuted :
  exists ast g lr0, grammar_from_ast ast = Ok g /\ plain g /\ items g = Ok lr0 /\
    (forall I, lr_state g (F_std g) I -> ~ conflict g (lalr_of g (F_std g) I)) /\
    make_tables ehash g = Panic PConflict /\
    (forall hash t, make_tables hash g <> Ok t) /\
    forall hash, collision_free hash lr0 -> make_tables hash g = Panic PConflict.
Proof.
  exists w27. destruct (grammar_from_ast w27) as [g| |] eqn:Eg; [|vm_compute in Eg; discriminate Eg..].
  destruct (items g) as [lr0| |] eqn:El; [|vm_compute in Eg; injection Eg as <-; vm_compute in El; discriminate El..].
  exists g, lr0. split; auto. destruct (grammar_from_ast_ok _ _ Eg) as (st & _ & W & _).
  assert (Hp : plain g).
  { vm_compute in Eg. injection Eg as <-. split; [apply eps_free_b_ok|apply eof_free_b_ok]; reflexivity. }
  assert (Et : make_tables ehash g = Panic PConflict) by (vm_compute in Eg; injection Eg as <-; compute_ok).
  split; [exact Hp|]. split; auto. split; [|split; [exact Et|split]].
  - apply (conflict_free_b_ok g _ lr0 W (proj1 Hp) El).
    vm_compute in Eg. injection Eg as <-. vm_compute in El. injection El as <-. reflexivity.
  - intros hash t H. rewrite (make_tables_any hash ehash g _ t W (ehash_free) H) in Et. discriminate.
  - intros hash Hc. rewrite <- Et. eapply make_tables_indep; eauto. apply ehash_free.
Qed.
Print Assumptions C27_lalr_grammar_gets_tables_refuted.

(** Exactly when tables are built: the collection exists, no hash collision, and no token is
    wanted by two items of an LALR state. *)
Theorem C27_tables_built_iff :
  forall ast g, grammar_from_ast ast = Ok g -> eps_free g -> forall hash,
  (exists t, make_tables hash g = Ok t) <->
  exists lr0, items g = Ok lr0 /\ collision_free hash lr0 /\
    forall I, lr_state g (F_std g) I -> forall p d p' d' k,
      wants g (F_std g) (lalr_of g (F_std g) I) p d k -> wants g (F_std g) (lalr_of g (F_std g) I) p' d' k -> (p, d) = (p', d').
Proof.
  intros ast g Hg He hash. destruct (grammar_from_ast_ok _ _ Hg) as (st & _ & W & _). split.
  - intros [t H]. destruct (make_tables_free _ _ _ _ W H) as (lr0 & El & Hc). exists lr0. split; auto. split; auto.
    destruct (make_tables_built _ _ _ _ W H) as (lr1 & m & B). pose proof (b_items _ _ _ _ _ B) as El1. rewrite El in El1. injection El1 as <-.
    apply (one_each_std g _ W He lr0 _ m El (b_merged _ _ _ _ _ B)). apply B.
  - intros (lr0 & El & Hc & H). apply (make_tables_ok_iff hash g _ W).
    destruct (merge_cores_spec hash lr0 (lr_wf g _ W lr0 El)) as [(lalr & m & E & Hm & _)|[_ (i & j & s & t & H1 & H2 & H3 & H4)]].
    + exists lr0, lalr, m. split; auto. split; auto. apply (one_each_std g _ W He lr0 _ m El Hm). exact H.
    + exfalso. apply H4. apply (Hc s t); eauto using nth_error_In.
Qed.
Print Assumptions C27_tables_built_iff.

(** In particular: a conflict-free grammar in which no two items of an LALR state have the same
    terminal after the dot gets its tables. *)
Theorem C27_lalr_grammar_gets_tables_partial :
  forall ast g, grammar_from_ast ast = Ok g -> eps_free g -> forall hash lr0, items g = Ok lr0 -> collision_free hash lr0 ->
  (forall I, lr_state g (F_std g) I -> ~ conflict g (lalr_of g (F_std g) I)) ->
  (forall I p d k p' d' k' x, lr_state g (F_std g) I -> lalr_of g (F_std g) I p d k -> lalr_of g (F_std g) I p' d' k' ->
     sym_at g p d x -> sym_at g p' d' x -> terminal x -> (p, d) = (p', d')) ->
  exists t, make_tables hash g = Ok t.
Proof.
  intros ast g Hg He hash lr0 El Hc Hcf Hs. apply (C27_tables_built_iff _ _ Hg He hash). exists lr0. split; auto. split; auto.
  intros I HI p d p' d' k H1 H2.
  destruct (ord_dec (p, d) (p', d')) as [E|Hne]; auto. exfalso.
  destruct H1 as [[C1 K1]|(x & X1 & T1 & K1 & [k1 J1] & _)], H2 as [[C2 K2]|(x' & X2 & T2 & K2 & [k2 J2] & _)].
  - apply (Hcf I HI). exists p, d, p', d', k. auto 10.
  - apply (Hcf I HI). exists p, d, p', d', k. split; auto. split; auto. split; auto. right. eauto 10.
  - apply (Hcf I HI). exists p', d', p, d, k. split; auto. split; auto. split; auto. right. eauto 10.
  - apply Hne. assert (x = x') as <- by (destruct K1 as [K1 _], K2 as [K2 _]; congruence). eauto.
Qed.
Print Assumptions C27_lalr_grammar_gets_tables_partial.

(** A case meeting the hypotheses of the last theorem. *)
Definition same_shift_b (g : grammar) (lr0 : list item_set) : bool :=
  forallb (fun s => forallb (fun s' => negb (eqb (core s) (core s')) ||
     forallb (fun e => forallb (fun e' => match dot_token g (fst e), dot_token g (fst e') with
        | Ok (Some x), Ok (Some y) => eqb (fst e) (fst e') || negb (eqb x y) || negb (is_term x)
        | _, _ => true
        end) s') s) lr0) lr0.
Example C27_nonvacuous : exists g lr0, grammar_from_ast w_expr = Ok g /\ eps_free g /\ items g = Ok lr0 /\ collision_free ehash lr0 /\
  (forall I, lr_state g (F_std g) I -> ~ conflict g (lalr_of g (F_std g) I)) /\
  (forall I p d k p' d' k' x, lr_state g (F_std g) I -> lalr_of g (F_std g) I p d k -> lalr_of g (F_std g) I p' d' k' ->
     sym_at g p d x -> sym_at g p' d' x -> terminal x -> (p, d) = (p', d')).
Proof.
  destruct (grammar_from_ast w_expr) as [g| |] eqn:Eg; [|vm_compute in Eg; discriminate Eg..].
  destruct (items g) as [lr0| |] eqn:El; [|vm_compute in Eg; injection Eg as <-; vm_compute in El; discriminate El..].
  exists g, lr0. split; auto. destruct (grammar_from_ast_ok _ _ Eg) as (st & _ & W & _).
  assert (He : eps_free g) by (vm_compute in Eg; injection Eg as <-; apply eps_free_b_ok; reflexivity).
  split; auto. split; auto. split; [apply ehash_free|]. split.
  - apply (conflict_free_b_ok g _ lr0 W He El).
    vm_compute in Eg. injection Eg as <-. vm_compute in El. injection El as <-. reflexivity.
  - assert (Hb : same_shift_b g lr0 = true)
      by (vm_compute in Eg; injection Eg as <-; vm_compute in El; injection El as <-; reflexivity).
    intros I p d k p' d' k' x HI (I1 & HI1 & C1 & H1) (I2 & HI2 & C2 & H2) Hx Hx' Ht.
    destruct (lr_std_all g _ W He lr0 El I1 HI1) as (s1 & Hs1 & Hr1). destruct (lr_std_all g _ W He lr0 El I2 HI2) as (s2 & Hs2 & Hr2).
    destruct (lr_std_in g _ W He lr0 El s1 Hs1) as (Hw1 & _). destruct (lr_std_in g _ W He lr0 El s2 Hs2) as (Hw2 & _).
    assert (Ec : core s1 = core s2).
    { apply (same_core_sets s1 s2 I1 I2); auto. intros q e. rewrite <- (C1 q e). apply C2. }
    apply Hr1 in H1 as (las1 & Hin1 & _). apply Hr2 in H2 as (las2 & Hin2 & _).
    unfold same_shift_b in Hb. rewrite forallb_forall in Hb. specialize (Hb s1 Hs1). rewrite forallb_forall in Hb. specialize (Hb s2 Hs2).
    rewrite Ec, eqb_refl in Hb. cbn [negb orb] in Hb. rewrite forallb_forall in Hb. specialize (Hb _ Hin1). rewrite forallb_forall in Hb. specialize (Hb _ Hin2).
    cbn [fst] in Hb. rewrite (proj2 (dot_token_sym_at g p d x) Hx), (proj2 (dot_token_sym_at g p' d' x) Hx') in Hb.
    rewrite eqb_refl, (proj2 (is_term_terminal x) Ht) in Hb. cbn [negb orb] in Hb. rewrite !orb_false_r in Hb. apply eqb_eq in Hb. exact Hb.
Qed.

(** ** C28 *)

(** False: after merging, the set the code looks up need not be a state. *)
Theorem C28_transitions_refuted :
  exists ast g t i s p d k x kx, grammar_from_ast ast = Ok g /\ plain g /\ make_tables ehash g = Ok t /\
    (forall hash lr0, items g = Ok lr0 -> collision_free hash lr0 -> make_tables hash g = Ok t) /\
    nth_error (t_states t) i = Some s /\ has s p d k /\ sym_at g p d x /\ terminal x /\ tok g kx x /\
    tbl_get (t_action t) i kx = None.
Proof.
  exists w28. destruct (grammar_from_ast w28) as [g| |] eqn:Eg; [|vm_compute in Eg; discriminate Eg..].
  destruct (make_tables ehash g) as [t| |] eqn:Et; [|vm_compute in Eg; injection Eg as <-; vm_compute in Et; discriminate Et..].
  destruct (nth_error (t_states t) 6) as [s|] eqn:Es;
      [|vm_compute in Eg; injection Eg as <-; vm_compute in Et; injection Et as <-; discriminate Es].
  exists g, t, 6, s, 6, 0, 4, (SStr [100]%N), 2. split; auto. split; [|split; auto; split; [|split; auto]].
  - vm_compute in Eg. injection Eg as <-. split; [apply eps_free_b_ok|apply eof_free_b_ok]; reflexivity.
  - intros hash lr0 El Hc. rewrite <- Et. eapply make_tables_indep; eauto. apply ehash_free.
  - vm_compute in Eg. injection Eg as <-. vm_compute in Et. injection Et as <-. vm_compute in Es. injection Es as <-.
    split; [eexists; split; [right; left; reflexivity|simpl; tauto]|].
    split; [eexists; split; reflexivity|]. split; [intros n; discriminate|]. split; [apply tok_idx; reflexivity|reflexivity].
Qed.
Print Assumptions C28_transitions_refuted.

(** Exactly which transitions are in the tables: those for which goto of the merged state is an
    LR(1) or an LALR state.  (That they lead to the right core is C26_entries_justified.) *)
Theorem C28_transitions_iff :
  forall ast g, grammar_from_ast ast = Ok g -> eps_free g -> forall hash t, make_tables hash g = Ok t ->
  forall i s p d k x, nth_error (t_states t) i = Some s -> has s p d k -> sym_at g p d x ->
  (terminal x -> exists kx, tok g kx x /\ ((exists j, tbl_get (t_action t) i kx = Some (Shift j)) <-> found g (F_std g) (has s) x)) /\
  (forall A, x = SNon A -> (exists j, tbl_get (t_goto t) i A = Some j) <-> found g (F_std g) (has s) x).
Proof.
  intros ast g Hg He hash t H i s p d k x Hs Hk Hx. destruct (grammar_from_ast_ok _ _ Hg) as (st & _ & W & _).
  destruct (make_tables_built _ _ _ _ W H) as (lr0 & m & B). pose proof (b_items _ _ _ _ _ B) as El. pose proof (b_merged _ _ _ _ _ B) as Hm.
  assert (Hin : In s (t_states t)) by eauto using nth_error_In.
  pose proof (target_found g _ W He lr0 _ m El Hm s x Hin) as Hf.
  assert (Htk : In x (g_tokens g)) by (eapply sym_in_tokens; eauto).
  split.
  - intros Ht. destruct (proj1 (get_token_idx_In g x) Htk) as [kx Ek]. apply tok_idx in Ek. exists kx. split; auto.
    rewrite <- Hf. split; intros [j Hj].
    + apply (b_action _ _ _ _ _ B) in Hj as (s' & p' & d' & Hs' & [(_ & _ & E)|(x' & j' & Hx' & _ & Htk' & _ & Htg & E)]).
      * destruct ((kx =? 0) && (p' =? 0)); discriminate.
      * injection E as <-. rewrite Hs in Hs'. injection Hs' as <-. exists j.
        assert (x = x') as <- by (destruct Ek as [E1 _], Htk' as [E2 _]; congruence). exact Htg.
    + exists j. apply (b_action _ _ _ _ _ B). exists s, p, d. split; auto. right. exists x, j. repeat (split; [eauto|]). reflexivity.
  - intros A ->. rewrite <- Hf. split; intros [j Hj]; exists j.
    + apply (b_goto _ _ _ _ _ B) in Hj as (s' & Hs' & _ & Htg). rewrite Hs in Hs'. injection Hs' as <-. exact Htg.
    + apply (b_goto _ _ _ _ _ B). eauto.
Qed.
Print Assumptions C28_transitions_iff.

(** All transitions are there when no two LR(1) states share a core. *)
Theorem C28_transitions_partial :
  forall ast g, grammar_from_ast ast = Ok g -> eps_free g -> forall hash t, make_tables hash g = Ok t ->
  (forall I J, lr_state g (F_std g) I -> lr_state g (F_std g) J -> same_core I J -> set_eq I J) ->
  forall i s p d k x, nth_error (t_states t) i = Some s -> has s p d k -> sym_at g p d x ->
  (terminal x -> exists kx j, tok g kx x /\ tbl_get (t_action t) i kx = Some (Shift j)) /\
  (forall A, x = SNon A -> exists j, tbl_get (t_goto t) i A = Some j).
Proof.
  intros ast g Hg He hash t H Hd i s p d k x Hs Hk Hx.
  assert (Hf : found g (F_std g) (has s) x).
  { destruct (C26_states_are_lalr _ _ Hg He _ _ H) as (H1 & _). destruct (H1 i s Hs) as (I & HI & Hq).
    assert (Hq' : set_eq (has s) I).
    { intros q e l. rewrite (Hq q e l). split.
      - intros (J & HJ & Hc & Hj). apply (Hd I J HI HJ Hc), Hj.
      - intros Hl. exists I. split; auto. split; auto. intros a b. reflexivity. }
    exists (clo g (F_std g) (move g I x)). split.
    - apply lr_goto; auto. exists p, (S d), k, d. split; auto. split; auto. apply Hq', Hk.
    - left. exact (clo_eq g _ _ (move_eq g _ _ x Hq')). }
  destruct (C28_transitions_iff _ _ Hg He _ _ H i s p d k x Hs Hk Hx) as [H1 H2]. split.
  - intros Ht. destruct (H1 Ht) as (kx & Htk & Hj). apply Hj in Hf as [j Hj']. eauto.
  - intros A E. apply (H2 A E), Hf.
Qed.
Print Assumptions C28_transitions_partial.

(** A grammar meeting its hypothesis: E -> E "+" T | T; T -> "x". *)
Example C28_nonvacuous : exists g t, grammar_from_ast w_expr = Ok g /\ eps_free g /\ make_tables ehash g = Ok t /\
  (forall I J, lr_state g (F_std g) I -> lr_state g (F_std g) J -> same_core I J -> set_eq I J) /\ length (t_states t) = 6.
Proof.
  destruct (grammar_from_ast w_expr) as [g| |] eqn:Eg; [|vm_compute in Eg; discriminate Eg..].
  destruct (items g) as [lr0| |] eqn:El; [|vm_compute in Eg; injection Eg as <-; vm_compute in El; discriminate El..].
  destruct (make_tables ehash g) as [t| |] eqn:Et; [|vm_compute in Eg; injection Eg as <-; vm_compute in Et; discriminate Et..].
  exists g, t. split; auto. destruct (grammar_from_ast_ok _ _ Eg) as (st & _ & W & _).
  assert (He : eps_free g) by (vm_compute in Eg; injection Eg as <-; apply eps_free_b_ok; reflexivity).
  split; auto. split; auto. split.
  - assert (Hb : forallb (fun s => forallb (fun s' => negb (eqb (core s) (core s')) || eqb s s') lr0) lr0 = true)
      by (vm_compute in Eg; injection Eg as <-; vm_compute in El; injection El as <-; reflexivity).
    intros I J HI HJ Hc. destruct (lr_std_all g _ W He lr0 El I HI) as (s1 & Hs1 & Hr1). destruct (lr_std_all g _ W He lr0 El J HJ) as (s2 & Hs2 & Hr2).
    destruct (lr_std_in g _ W He lr0 El s1 Hs1) as (Hw1 & _). destruct (lr_std_in g _ W He lr0 El s2 Hs2) as (Hw2 & _).
    apply (same_core_sets s1 s2 I J Hw1 Hw2 Hr1 Hr2) in Hc.
    rewrite forallb_forall in Hb. specialize (Hb s1 Hs1). rewrite forallb_forall in Hb. specialize (Hb s2 Hs2).
    rewrite Hc, eqb_refl in Hb. cbn [negb orb] in Hb. apply eqb_eq in Hb. subst s2.
    intros p d k. rewrite <- (Hr1 p d k). apply Hr2.
  - vm_compute in Eg. injection Eg as <-. vm_compute in Et. injection Et as <-. reflexivity.
Qed.
