(** Property C73: grammars in which the next token tells which rule to use. *)
From Verif Require Import Base Grammar GrammarSpec GrammarProofs GrammarCheck First Item ItemSpec ItemProofs ItemPlain
  Table TableSpec MergeProofs TableProofs TableFacts Witness PropsGrammar PropsTable Parse ParseSpec ParseCheck TreeFacts Auto ParseProofs
  ParseTerm ParseCycle ParseComplete PropsParse ReportSpec PropsReport LlSpec Ll.

Local Ltac compute_ok := vm_compute; reflexivity.
Local Ltac witness w Eg Et :=
  exists w; destruct (grammar_from_ast w) as [g| |] eqn:Eg; [|vm_compute in Eg; discriminate Eg..];
  destruct (make_tables ehash g) as [t| |] eqn:Et; [|vm_compute in Eg; injection Eg as <-; vm_compute in Et; discriminate Et..];
  exists g, t.
Local Ltac open Eg Et := vm_compute in Eg; injection Eg as <-; vm_compute in Et; injection Et as <-.
Local Ltac wf_ok Eg := vm_compute in Eg; injection Eg as <-;
  split; [split; [apply eps_free_b_ok|apply eof_free_b_ok]|apply start_fresh_b_ok]; reflexivity.

Lemma productive_useful g : all_productive g -> useful g.
Proof. intros H x (p & pr & _ & Hp & Hx). apply (H pr); eauto using nth_error_In. Qed.
(** Checking LL(1) with FIRST (which C20 relates to derivations). *)
Definition ll1_b (g : grammar) : bool :=
  forallb (fun p => forallb (fun q => (fst p =? fst q) || negb (eqb (p_name (snd p)) (p_name (snd q))) ||
    match first g (p_syms (snd p)), first g (p_syms (snd q)) with Ok s, Ok s' => forallb (fun y => negb (existsb (eqb y) s')) s | _, _ => false end)
    (enumerate (g_prods g))) (enumerate (g_prods g)).
Lemma ll1_b_ok ast g : grammar_from_ast ast = Ok g -> eps_free g -> ll1_b g = true -> ll1 g.
Proof.
  intros Hg He H p q pp pq y _ _ Hp Hq En Bp Bq. unfold ll1_b in H. rewrite forallb_forall in H.
  assert (G : forall p pp, nth_error (g_prods g) p = Some pp -> In (p, pp) (enumerate (g_prods g))) by (intros; apply enumerate_In; auto).
  specialize (H _ (G _ _ Hp)). rewrite forallb_forall in H. specialize (H _ (G _ _ Hq)). cbn [fst snd] in H. rewrite En, eqb_refl in H. cbn [negb] in H. rewrite orb_false_r in H.
  apply orb_true_iff in H as [H|H]; [apply Nat.eqb_eq in H; auto|]. exfalso.
  destruct (first g (p_syms pp)) as [s| |] eqn:E1; try discriminate. destruct (first g (p_syms pq)) as [s'| |] eqn:E2; try discriminate.
  destruct (He pp (nth_error_In _ _ Hp)) as [N1 S1]. destruct (He pq (nth_error_In _ _ Hq)) as [N2 S2].
  apply (proj2 (C20_first_correct _ _ Hg He _ _ N1 S1 E1)) in Bp. apply (proj2 (C20_first_correct _ _ Hg He _ _ N2 S2 E2)) in Bq.
  rewrite forallb_forall in H. specialize (H _ Bp). apply negb_true_iff in H. assert (existsb (eqb y) s' = true) by (apply existsb_exists; exists y; split; auto; apply eqb_refl). congruence.
Qed.

(** ** C73 *)

(** Tables are built. *)
Theorem C73_tables :
  forall ast g, grammar_from_ast ast = Ok g -> eps_free g -> ll1 g -> useful g ->
  exists lr0, items g = Ok lr0 /\ forall hash, collision_free hash lr0 -> exists t, make_tables hash g = Ok t.
Proof.
  intros ast g Hg He Hll Hu. destruct (grammar_from_ast_ok _ _ Hg) as (st & _ & W & _).
  destruct (proj2 (items_ok_iff g _ W He) (ll_computable g He Hll Hu)) as [lr0 El]. exists lr0. split; auto. intros hash Hc.
  apply (C27_tables_built_iff _ _ Hg He). exists lr0. split; auto. split; auto. intros I HI p d p' d' k.
  apply kernel_wants; auto. apply lalr_kernel; auto.
Qed.
Print Assumptions C73_tables.

(** The parser ends on every token sequence. *)
Theorem C73_terminates :
  forall ast g, grammar_from_ast ast = Ok g -> plain g -> ll1 g -> useful g ->
  forall hash t, make_tables hash g = Ok t ->
  forall tokens w, ended tokens w -> exists a n c, nth_error tokens 0 = Some a /\
    nsteps (parse_step g t tokens) n (parse_init a) c /\ parse_step g t tokens c = inr (parse_impl g t tokens).
Proof.
  intros ast g Hg Hp Hll Hu. apply (C31_acyclic_terminates_partial _ _ Hg Hp). intros p pr A Hr Hpr Hx (v & H1 & H2).
  apply (no_left g (proj1 Hp) Hll Hu A); [exists p, pr; auto|]. exists v, []. auto.
Qed.
Print Assumptions C73_terminates.

(** A sentence has one tree, and no sentence is a proper beginning of another. *)
Theorem C73_trees :
  forall ast g st, grammar_from_ast ast = Ok g -> find ap_start ast = Some st -> eps_free g -> ll1 g ->
  (forall w tr tr', parse_tree g (ap_name st) w tr -> parse_tree g (ap_name st) w tr' -> tr = tr') /\
  (forall w w', sentence g (ap_name st) w -> sentence g (ap_name st) (w ++ w') -> w' = []).
Proof.
  intros ast g s Hg Hs He Hll. destruct (grammar_from_ast_ok _ _ Hg) as (s' & Hs' & W & Hst & _). rewrite Hs in Hs'. injection Hs' as <-.
  assert (Hus : used g (SNon (ap_name s))).
  { eexists 0, _. split; [constructor|]. split; [apply (wg_prod0 _ _ W)|]. left. auto. }
  split.
  - intros w tr tr' (Ho & Hr & Hy) (Ho' & Hr' & Hy'). apply (ll_tree g He Hll tr (SNon (ap_name s)) tr' [] []); auto. f_equal.
    unfold symbols in *. rewrite Hy in Hy'. clear -Hy'. revert Hy'. generalize (yield tr) (yield tr'). induction l as [|x l IH]; intros [|y l'] E; try discriminate; auto.
    injection E as -> E. f_equal. auto.
  - intros w w' (l & Hl & Ht & Hd) (l' & Hl' & Ht' & Hd'). destruct (derives_tree g _ _ Hd Ht) as (tr & Ho & Hr & Hy). destruct (derives_tree g _ _ Hd' Ht') as (tr' & Ho' & Hr' & Hy').
    assert (Hp : exists r, l' = l ++ r /\ length r = length w').
    { unfold symbols in *. rewrite map_app, Hl in Hl'. clear -Hl'. revert l' Hl'. induction l as [|x l IH]; intros l' E.
      - exists l'. split; auto. apply (f_equal (@length _)) in E. cbn [map app] in E. rewrite !map_length in E. auto.
      - destruct l' as [|y l']; [discriminate|]. injection E as -> E. destruct (IH _ E) as (r & -> & Hr). exists r. auto. }
    destruct Hp as (r & -> & Hlen). assert (tr = tr') as <-.
    { apply (ll_tree g He Hll tr (SNon (ap_name s)) tr' r []); auto. rewrite Hy, Hy', app_nil_r. reflexivity. }
    rewrite Hy in Hy'. rewrite <- (app_nil_r l) in Hy' at 1. apply app_inv_head in Hy'. subst r. destruct w'; [auto|discriminate].
Qed.
Print Assumptions C73_trees.

(** That the parser accepts all sentences is false: it can lack a transition into a rule (C28). *)
Theorem C73_sentences_refuted :
  exists ast g t tokens w, tables_of ast g t /\ well_formed g /\ ll1 g /\ useful g /\ ended tokens w /\
    (forall st, find ap_start ast = Some st -> sentence g (ap_name st) w) /\
    parse_impl g t tokens = Panic PInvalidToken.
Proof.
  witness w28 Eg Et. exists [7; 1; 2; 4; 0], [7; 1; 2; 4]. split; [apply tables_of_any; auto|].
  assert (Hwf : well_formed g) by wf_ok Eg. split; [exact Hwf|].
  split; [apply (ll1_b_ok _ _ Eg (proj1 (proj1 Hwf))); clear Hwf; open Eg Et; compute_ok|]. clear Hwf. open Eg Et.
  set (D := Node 6 [Leaf (SStr [100]%N)]). set (A := Node 4 [Leaf (SStr [99]%N); D]). set (S := Node 1 [Leaf (SStr [117]%N); A; Leaf (SStr [112]%N)]).
  split; [apply productive_useful, (productive_b_ok _ [D; A; Node 5 [Leaf (SStr [102]%N); D]; S]); compute_ok|].
  split; [split; [reflexivity|simpl; intuition discriminate]|]. split; [|compute_ok].
  intros s Hs. vm_compute in Hs. injection Hs as <-. cbn [ap_name].
  apply (tree_sentence _ _ _ S). compute_ok.
Qed.
Print Assumptions C73_sentences_refuted.

(** What is missing is only into rules: behind the first symbol of a rule every transition is in
    the tables. *)
Theorem C73_inner_transitions :
  forall ast g, grammar_from_ast ast = Ok g -> eps_free g -> ll1 g -> useful g -> forall hash t, make_tables hash g = Ok t ->
  forall i p d k x, st t i p (S d) k -> sym_at g p (S d) x ->
    (terminal x -> forall kx, tok g kx x -> exists j, tbl_get (t_action t) i kx = Some (Shift j)) /\
    (forall A, x = SNon A -> exists j, tbl_get (t_goto t) i A = Some j).
Proof.
  intros ast g Hg He Hll Hu hash t Ht i p d k x (s & Hs & Hk) Hx. destruct (grammar_from_ast_ok _ _ Hg) as (st0 & _ & W & _).
  destruct (C26_states_are_lalr _ _ Hg He _ _ Ht) as (H1 & _). destruct (H1 i s Hs) as (I & HI & Hq).
  assert (Hf : found g (F_std g) (has s) x).
  { apply (found_eq g _ _ x Hq). eapply inner_found; eauto. apply Hq. eauto. }
  destruct (C28_transitions_iff _ _ Hg He _ _ Ht i s p (S d) k x Hs Hk Hx) as [T1 T2]. split.
  - intros Htx kx Hkx. destruct (T1 Htx) as (kx' & Hk' & Hj). apply tok_idx in Hkx, Hk'. replace kx with kx' by congruence. apply Hj, Hf.
  - intros A E. apply (T2 A E), Hf.
Qed.
Print Assumptions C73_inner_transitions.

(** When the others are there as well, exactly the sentences are accepted. *)
Theorem C73_sentences_partial :
  forall ast g st0, grammar_from_ast ast = Ok g -> find ap_start ast = Some st0 -> plain g -> start_fresh g -> ll1 g -> useful g ->
  forall hash t, make_tables hash g = Ok t ->
  (forall i p k x, st t i p 0 k -> sym_at g p 0 x ->
    (terminal x -> forall kx, tok g kx x -> exists j, tbl_get (t_action t) i kx = Some (Shift j)) /\
    (forall A, x = SNon A -> exists j, tbl_get (t_goto t) i A = Some j)) ->
  forall tokens w, ended tokens w ->
  ((exists ps, parse_impl g t tokens = Ok ps) <-> sentence g (ap_name st0) w) /\
  (parse_impl g t tokens = Panic PInvalidToken <-> ~ sentence g (ap_name st0) w).
Proof.
  intros ast g s Hg Hs Hp Hf Hll Hu hash t Ht H0. apply (C30_accepts_exactly_the_sentences_partial _ _ _ Hg Hs Hp Hf _ _ Ht).
  intros i p [|d] k x Hk Hx; [eapply H0; eauto|]. eapply C73_inner_transitions; eauto. exact (proj1 Hp).
Qed.
Print Assumptions C73_sentences_partial.

(** Rules that derive nothing have to be excluded: A -> A "c" is not in the way of LL(1), but FIRST
    does not return.  S -> "a" B A; B -> "b"; A -> A "c". *)
Definition w73 : list aprod := [PS 83 [[T 97; V 66; V 65]]; P 66 [[T 98]]; P 65 [[V 65; T 99]]].
Theorem C73_useless_refuted :
  exists ast g, grammar_from_ast ast = Ok g /\ well_formed g /\ ll1 g /\ defined g /\ forall hash, make_tables hash g = Diverge.
Proof.
  exists w73. destruct (grammar_from_ast w73) as [g| |] eqn:Eg; [|vm_compute in Eg; discriminate Eg..]. exists g. split; auto.
  split; [wf_ok Eg|]. vm_compute in Eg. injection Eg as <-. split; [|split; [apply defined_b_ok; reflexivity|]].
  - intros p q pp pq y _ _ Hp Hq En _ _. cbn [g_prods] in Hp, Hq.
    do 4 (destruct p as [|p]; [do 4 (destruct q as [|q]; [cbn in Hp, Hq; injection Hp as <-; injection Hq as <-; auto; discriminate En|]); destruct q; discriminate Hq|]).
    destruct p; discriminate Hp.
  - intros hash. unfold make_tables. match goal with |- context [items ?g] => assert (E : items g = Diverge) by compute_ok; rewrite E end. reflexivity.
Qed.
Print Assumptions C73_useless_refuted.

(** A case of everything: S -> "(" L; L -> S L | ")". *)
Definition w73' : list aprod := [PS 83 [[T 40; V 76]]; P 76 [[V 83; V 76]; [T 41]]].
Example C73_nonvacuous : exists g t, tables_of w73' g t /\ well_formed g /\ ll1 g /\ useful g /\ closed g t /\
  (exists ps, parse_impl g t [1; 1; 2; 1; 2; 2; 0] = Ok ps).
Proof.
  destruct (grammar_from_ast w73') as [g| |] eqn:Eg; [|vm_compute in Eg; discriminate Eg..].
  destruct (make_tables ehash g) as [t| |] eqn:Et; [|vm_compute in Eg; injection Eg as <-; vm_compute in Et; discriminate Et..].
  exists g, t. split; [apply tables_of_any; auto|]. assert (Hwf : well_formed g) by wf_ok Eg. split; [exact Hwf|].
  split; [apply (ll1_b_ok _ _ Eg (proj1 (proj1 Hwf))); clear Hwf; open Eg Et; compute_ok|]. clear Hwf.
  split; [open Eg Et; set (L := Node 3 [Leaf (SStr [41]%N)]); apply productive_useful, (productive_b_ok _ [L; Node 1 [Leaf (SStr [40]%N); L]]); compute_ok|].
  split; [apply closed_b_ok; open Eg Et; compute_ok|]. open Eg Et. eexists. compute_ok.
Qed.
