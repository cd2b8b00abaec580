(** Properties C55 and C56: the parser's error report. *)
From Verif Require Import Base Grammar GrammarSpec GrammarProofs GrammarCheck First Item ItemSpec ItemProofs ItemPlain
  Table TableSpec MergeProofs TableProofs TableFacts Witness PropsTable Parse ParseSpec ParseCheck TreeFacts Auto ParseProofs
  ParseTerm ParseCycle ParseComplete PropsParse Report ReportSpec ReportProofs ReportExact.

Local Ltac compute_ok := vm_compute; reflexivity.
Local Ltac open Eg Et := vm_compute in Eg; injection Eg as <-; vm_compute in Et; injection Et as <-.
Local Ltac wf_ok Eg := vm_compute in Eg; injection Eg as <-;
  split; [split; [apply eps_free_b_ok|apply eof_free_b_ok]|apply start_fresh_b_ok]; reflexivity.

(** S -> "a" B | "c"; B -> "b" B. *)
Definition w55 : list aprod := [PS 83 [[T 97; V 66]; [T 99]]; P 66 [[T 98; V 66]]].
(** S -> C C | "x"; C -> "c" C | "d". *)
Definition w56 : list aprod := [PS 83 [[V 67; V 67]; [T 120]]; P 67 [[T 99; V 67]; [T 100]]].
(** S -> A "p" | "q" A "r"; A -> N | N "s"; N -> "n". *)
Definition w56' : list aprod := [PS 83 [[V 65; T 112]; [T 113; V 65; T 114]]; P 65 [[V 78]; [V 78; T 115]]; P 78 [[T 110]]].

(** Checking productivity by a tree for each non-terminal. *)
Definition productive_b (g : grammar) (trs : list tree) : bool :=
  forallb (fun p => forallb (fun x => is_term x || existsb (fun tr => tree_ok_b g tr && all_some [root g tr] [x]) trs) (p_syms p)) (g_prods g).
Lemma productive_b_ok g trs : productive_b g trs = true -> all_productive g.
Proof.
  unfold productive_b. rewrite forallb_forall. intros H p x Hp Hx. specialize (H p Hp). rewrite forallb_forall in H. specialize (H x Hx).
  apply orb_true_iff in H as [H|H].
  - exists [x]. split; [|constructor]. constructor; [apply is_term_terminal, H|constructor].
  - apply existsb_exists in H as (tr & _ & H). apply andb_true_iff in H as [H1 H2]. apply tree_ok_b_ok in H1. apply all_some_ok in H2. injection H2 as H2.
    exists (yield tr). split; [eapply tree_terminals; eauto|apply tree_derives; auto].
Qed.
Lemma tree_sentence g start w tr : parse_tree_b g start w tr = true -> sentence g start w.
Proof.
  intros H. apply parse_tree_b_ok in H as (Ho & Hr & Hy). exists (yield tr). split; [exact Hy|]. split; [eapply tree_terminals; exact Ho|apply tree_derives; auto].
Qed.

(** ** C55 *)

(** There is a report exactly when the token is rejected. *)
Theorem C55_reported :
  forall g t tokens, (exists r, parse_report g t tokens = Some r) <-> parse_impl g t tokens = Panic PInvalidToken.
Proof.
  intros g t tokens. split.
  - intros [r H]. apply parse_report_end in H as (a & tl & n & c & q & s & _ & _ & _ & _ & _ & H). exact H.
  - apply parse_report_some.
Qed.
Print Assumptions C55_reported.

(** The report is about a token of the input; what precedes it can be continued to a sentence, for
    productive grammars; it cannot itself come next, if no transition is missing.  So the report is
    at the first wrong token.  Missing: other grammars and tables, for which it is false. *)
Theorem C55_first_wrong_partial :
  forall ast g st, grammar_from_ast ast = Ok g -> find ap_start ast = Some st -> plain g -> start_fresh g ->
  forall hash t, make_tables hash g = Ok t ->
  forall tokens w r, ended tokens w -> parse_report g t tokens = Some r ->
  rp_pos r <= length w /\ nth_error tokens (rp_pos r) = Some (rp_token r) /\
  (all_productive g -> viable_prefix g (ap_name st) (firstn (rp_pos r) w)) /\
  (closed g t -> ~ can_follow g (ap_name st) (firstn (rp_pos r) w) (rp_token r)).
Proof.
  intros ast g s Hg Hs [He Heof] Hf hash t Ht tokens w r Hend H.
  destruct (grammar_from_ast_ok _ _ Hg) as (s' & Hs' & W & Hst & _). rewrite Hs in Hs'. injection Hs' as <-.
  apply reported in H as (c & q & l & Hc & E & Es & ->). cbn [rp_pos rp_token].
  destruct (reached_inv g _ W Hst hash t Ht Heof tokens w c Hend Hc) as (ts & _ & _ & Hi & Ha & _).
  split; auto. split; auto. split.
  - intros Hp. eapply reached_viable; eauto.
  - intros Hcl. eapply invalid_wrong; eauto.
Qed.
Print Assumptions C55_first_wrong_partial.

(** False when a symbol derives nothing: "a" is read though no sentence begins so. *)
Theorem C55_late_refuted :
  exists ast g t tokens w r, tables_of ast g t /\ well_formed g /\ closed g t /\ ended tokens w /\
    parse_report g t tokens = Some r /\
    forall st, find ap_start ast = Some st -> ~ viable_prefix g (ap_name st) (firstn (rp_pos r) w).
Proof.
  exists w55. destruct (grammar_from_ast w55) as [g| |] eqn:Eg; [|vm_compute in Eg; discriminate Eg..].
  destruct (make_tables ehash g) as [t| |] eqn:Et; [|vm_compute in Eg; injection Eg as <-; vm_compute in Et; discriminate Et..].
  eexists g, t, [1; 3; 0], [1; 3], _. split; [apply tables_of_any; auto|]. split; [wf_ok Eg|]. open Eg Et.
  split; [apply closed_b_ok; compute_ok|]. split; [split; [reflexivity|simpl; intuition discriminate]|]. split; [compute_ok|].
  intros s Hs. vm_compute in Hs. injection Hs as <-. cbn [ap_name rp_pos firstn].
  match goal with |- ~ viable_prefix ?g0 _ _ => set (g := g0) end.
  assert (HB : forall tr, tree_ok g tr -> root g tr <> Some (SNon [66%N])).
  { induction tr as [x|p ts IH] using tree_ind'; intros Ho Hr.
    - apply tree_ok_leaf in Ho. injection Hr as ->. eapply Ho. reflexivity.
    - apply tree_ok_node in Ho as (pr & Hp & Hts & Hm). cbn [root] in Hr. rewrite Hp in Hr. injection Hr as Hn.
      apply nth_error_In in Hp. simpl in Hp. destruct Hp as [<-|[<-|[<-|[<-|[]]]]]; try discriminate Hn.
      cbn [p_syms map] in Hm. destruct ts as [|t1 [|t2 [|? ?]]]; try discriminate. injection Hm as _ Hm.
      inversion IH as [|? ? _ IH']; subst. inversion IH' as [|? ? IH2 _]; subst. inversion Hts as [|? ? _ Hts']; subst. inversion Hts' as [|? ? Hts2 _]; subst.
      exact (IH2 Hts2 Hm). }
  intros (v & l & Hl & Htl & Hd). destruct (derives_tree g _ _ Hd Htl) as (tr & Ho & Hr & Hy). subst l.
  destruct tr as [x|p ts]; [apply tree_ok_leaf in Ho; injection Hr as ->; eapply Ho; reflexivity|].
  apply tree_ok_node in Ho as (pr & Hp & Hts & Hm). cbn [root] in Hr. rewrite Hp in Hr. injection Hr as Hn.
  apply nth_error_In in Hp. simpl in Hp. destruct Hp as [<-|[<-|[<-|[<-|[]]]]]; try discriminate Hn; cbn [p_syms map] in Hm.
  - destruct ts as [|t1 [|t2 [|? ?]]]; try discriminate. injection Hm as _ Hm. inversion Hts as [|? ? _ Hts']; subst. inversion Hts' as [|? ? Hts2 _]; subst.
    exact (HB t2 Hts2 Hm).
  - destruct ts as [|t1 [|? ?]]; try discriminate. injection Hm as Hm. inversion Hts as [|? ? Ht1 _]; subst.
    destruct t1 as [x|p' ts']; simpl in Hm; [|destruct (nth_error _ p') in Hm; discriminate]. injection Hm as ->.
    unfold symbols in Hl. simpl in Hl. discriminate Hl.
Qed.
Print Assumptions C55_late_refuted.

(** False when a transition is missing: the token rejected could come next. *)
Theorem C55_early_refuted :
  exists ast g t tokens w r, tables_of ast g t /\ well_formed g /\ all_productive g /\ ended tokens w /\
    parse_report g t tokens = Some r /\
    forall st, find ap_start ast = Some st -> can_follow g (ap_name st) (firstn (rp_pos r) w) (rp_token r).
Proof.
  exists w28. destruct (grammar_from_ast w28) as [g| |] eqn:Eg; [|vm_compute in Eg; discriminate Eg..].
  destruct (make_tables ehash g) as [t| |] eqn:Et; [|vm_compute in Eg; injection Eg as <-; vm_compute in Et; discriminate Et..].
  eexists g, t, [7; 1; 2; 4; 0], [7; 1; 2; 4], _. split; [apply tables_of_any; auto|]. split; [wf_ok Eg|]. open Eg Et.
  set (D := Node 6 [Leaf (SStr [100]%N)]). set (A := Node 4 [Leaf (SStr [99]%N); D]). set (B := Node 5 [Leaf (SStr [102]%N); D]).
  set (S := Node 1 [Leaf (SStr [117]%N); A; Leaf (SStr [112]%N)]).
  split; [apply (productive_b_ok _ [D; A; B; S]); compute_ok|].
  split; [split; [reflexivity|simpl; intuition discriminate]|]. split; [compute_ok|].
  intros s Hs. vm_compute in Hs. injection Hs as <-. exists [4]. apply (tree_sentence _ _ _ S). compute_ok.
Qed.
Print Assumptions C55_early_refuted.

Example C55_nonvacuous : exists g t st r, tables_of w_cc g t /\ find ap_start w_cc = Some st /\ well_formed g /\ closed g t /\ all_productive g /\
  ended [1; 2; 1; 0] [1; 2; 1] /\ parse_report g t [1; 2; 1; 0] = Some r /\ rp_pos r = 3 /\ rp_token r = 0.
Proof.
  destruct (grammar_from_ast w_cc) as [g| |] eqn:Eg; [|vm_compute in Eg; discriminate Eg..].
  destruct (make_tables ehash g) as [t| |] eqn:Et; [|vm_compute in Eg; injection Eg as <-; vm_compute in Et; discriminate Et..].
  eexists g, t, _, _. split; [apply tables_of_any; auto|]. split; [reflexivity|]. split; [wf_ok Eg|]. open Eg Et.
  split; [apply closed_b_ok; compute_ok|].
  set (C := Node 3 [Leaf (SStr [100]%N)]). split; [apply (productive_b_ok _ [C; Node 1 [C; C]]); compute_ok|].
  split; [split; [reflexivity|simpl; intuition discriminate]|]. split; [compute_ok|]. split; reflexivity.
Qed.

(** ** C56 *)

(** False: EOF is listed as valid after "d", which is no sentence. *)
Theorem C56_listed_can_follow_refuted :
  exists ast g t tokens w r l k, tables_of ast g t /\ well_formed g /\ closed g t /\ all_productive g /\ ended tokens w /\
    parse_report g t tokens = Some r /\ rp_valid r = Some l /\ In k l /\
    forall st, find ap_start ast = Some st -> ~ can_follow g (ap_name st) (firstn (rp_pos r) w) k.
Proof.
  exists w56. destruct (grammar_from_ast w56) as [g| |] eqn:Eg; [|vm_compute in Eg; discriminate Eg..].
  destruct (make_tables ehash g) as [t| |] eqn:Et; [|vm_compute in Eg; injection Eg as <-; vm_compute in Et; discriminate Et..].
  eexists g, t, [2; 3; 0], [2; 3], _, _, 0. split; [apply tables_of_any; auto|].
  assert (Hwf : well_formed g) by (wf_ok Eg). split; [exact Hwf|].
  assert (Hcl : closed g t) by (open Eg Et; apply closed_b_ok; compute_ok). split; [exact Hcl|].
  split; [|split; [split; [reflexivity|simpl; intuition discriminate]|split; [open Eg Et; compute_ok|]]].
  - open Eg Et. set (C := Node 4 [Leaf (SStr [100]%N)]). apply (productive_b_ok _ [C; Node 1 [C; C]]). compute_ok.
  - split; [reflexivity|]. split; [left; reflexivity|]. intros s Hs. cbn [rp_pos firstn]. unfold can_follow. cbn [Nat.eqb].
    destruct (C30_accepts_exactly_the_sentences_partial w56 g s Eg Hs (proj1 Hwf) (proj2 Hwf) ehash t Et Hcl [2; 0] [2]) as [_ H];
      [split; [reflexivity|simpl; intuition discriminate]|].
    apply H. clear -Eg Et. open Eg Et. compute_ok.
Qed.
Print Assumptions C56_listed_can_follow_refuted.

(** False: after "n" the token "s" can come, but only "p" is listed. *)
Theorem C56_all_listed_refuted :
  exists ast g t tokens w r l k, tables_of ast g t /\ well_formed g /\ closed g t /\ all_productive g /\ ended tokens w /\
    parse_report g t tokens = Some r /\ rp_valid r = Some l /\ ~ In k l /\
    forall st, find ap_start ast = Some st -> can_follow g (ap_name st) (firstn (rp_pos r) w) k.
Proof.
  exists w56'. destruct (grammar_from_ast w56') as [g| |] eqn:Eg; [|vm_compute in Eg; discriminate Eg..].
  destruct (make_tables ehash g) as [t| |] eqn:Et; [|vm_compute in Eg; injection Eg as <-; vm_compute in Et; discriminate Et..].
  eexists g, t, [1; 4; 0], [1; 4], _, _, 5. split; [apply tables_of_any; auto|]. split; [wf_ok Eg|]. open Eg Et.
  split; [apply closed_b_ok; compute_ok|].
  set (N := Node 5 [Leaf (SStr [110]%N)]). set (A := Node 4 [N; Leaf (SStr [115]%N)]). set (S := Node 1 [A; Leaf (SStr [112]%N)]).
  split; [apply (productive_b_ok _ [N; A; S]); compute_ok|].
  split; [split; [reflexivity|simpl; intuition discriminate]|]. split; [compute_ok|]. split; [reflexivity|].
  split; [simpl; intuition discriminate|]. intros s Hs. vm_compute in Hs. injection Hs as <-.
  exists [2]. apply (tree_sentence _ _ _ S). compute_ok.
Qed.
Print Assumptions C56_all_listed_refuted.

(** It holds when no two LR(1) states have the same core, so that none are merged; missing: merged
    states, for which it is false. *)
Theorem C56_exact_partial :
  forall ast g st, grammar_from_ast ast = Ok g -> find ap_start ast = Some st -> plain g -> start_fresh g -> all_productive g ->
  forall hash t, make_tables hash g = Ok t ->
  (forall I J, lr_state g (F_std g) I -> lr_state g (F_std g) J -> same_core I J -> set_eq I J) ->
  forall tokens w r, ended tokens w -> parse_report g t tokens = Some r ->
  forall k, (exists l, rp_valid r = Some l /\ In k l) <-> can_follow g (ap_name st) (firstn (rp_pos r) w) k.
Proof.
  intros ast g s Hg Hs [He Heof] Hf Hp hash t Ht Hd tokens w r Hend H k.
  pose proof (C28_closed_of_distinct_cores _ _ Hg He _ _ Ht Hd) as Hcl.
  destruct (grammar_from_ast_ok _ _ Hg) as (s' & Hs' & W & Hst & _). rewrite Hs in Hs'. injection Hs' as <-.
  eapply exact_list; eauto.
Qed.
Print Assumptions C56_exact_partial.

(** With merged states: when the last thing done was to read a token, or nothing was done, every token
    that can come next has an entry, and every token that is shifted can come next. *)
Theorem C56_after_reading_partial :
  forall ast g st, grammar_from_ast ast = Ok g -> find ap_start ast = Some st -> plain g -> start_fresh g ->
  forall hash t, make_tables hash g = Ok t ->
  forall tokens w, ended tokens w -> forall a tl n c q s, tokens = a :: tl -> nsteps (parse_step g t tokens) n (parse_init a) c -> ps_stack c = q :: s ->
  (all_productive g -> forall k j, tbl_get (t_action t) q k = Some (Shift j) -> can_follow g (ap_name st) (firstn (ps_i c) w) k) /\
  (closed g t -> forall c', (c' = c /\ n = 0 \/ parse_step g t tokens c = inl c' /\ ps_i c' = S (ps_i c)) ->
     forall q' s' k, ps_stack c' = q' :: s' -> can_follow g (ap_name st) (firstn (ps_i c') w) k ->
     exists l, tbl_valid (t_action t) q' = Some l /\ In k l).
Proof.
  intros ast g s Hg Hs [He Heof] Hf hash t Ht tokens w Hend a tl n c q l Et Hn Es.
  destruct (grammar_from_ast_ok _ _ Hg) as (s' & Hs' & W & Hst & _). rewrite Hs in Hs'. injection Hs' as <-.
  assert (Hc : reached g t tokens c) by (exists a, tl, n; auto). split.
  - intros Hp k j Ha. eapply shift_follows; eauto.
  - intros Hcl c' Hc' q' s' k Es' Hk. apply tbl_valid_get. destruct Hc' as [[-> ->]|[E Ei]].
    + eapply fresh_listed; eauto. left. inversion Hn; subst. split; reflexivity.
    + eapply (fresh_listed g _ W Hst hash t Ht He Heof Hf Hcl tokens w c' q' s' k Hend (reached_step g t tokens c c' Hc E) Es'); auto. right. exists c. auto.
Qed.
Print Assumptions C56_after_reading_partial.

(** E -> E "+" T | T; T -> "x": after "x" only EOF and "+" can come. *)
Example C56_nonvacuous : exists g t st r, tables_of w_expr g t /\ find ap_start w_expr = Some st /\ well_formed g /\ all_productive g /\
  (forall I J, lr_state g (F_std g) I -> lr_state g (F_std g) J -> same_core I J -> set_eq I J) /\
  ended [2; 2; 0] [2; 2] /\ parse_report g t [2; 2; 0] = Some r /\ rp_valid r = Some [0; 1] /\ rp_pos r = 1.
Proof.
  destruct C28_nonvacuous as (g & t & Eg & _ & Et & Hd & _).
  eexists g, t, _, _. split; [apply tables_of_any; auto|]. split; [reflexivity|]. split; [clear Hd; wf_ok Eg|].
  split; [|split; [exact Hd|]]; clear Hd; open Eg Et.
  - set (T := Node 3 [Leaf (SStr [120]%N)]). apply (productive_b_ok _ [T; Node 2 [T]]). compute_ok.
  - split; [split; [reflexivity|simpl; intuition discriminate]|]. split; [compute_ok|]. split; reflexivity.
Qed.
