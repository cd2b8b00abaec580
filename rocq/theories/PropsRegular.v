(** Property C75: regular grammars. *)
From Verif Require Import Base Grammar GrammarSpec GrammarProofs GrammarCheck First FirstProofs Item ItemSpec ItemProofs ItemPlain
  Table TableSpec MergeProofs TableProofs TableFacts Witness PropsGrammar PropsTable Parse ParseSpec ParseCheck TreeFacts Auto ParseProofs
  ParseTerm ParseCycle ParseComplete PropsParse ReportSpec PropsReport LlSpec Ll PropsLl RegularSpec.

Local Ltac compute_ok := vm_compute; reflexivity.
Local Ltac open Eg Et := vm_compute in Eg; injection Eg as <-; vm_compute in Et; injection Et as <-.
Local Ltac wf_ok Eg := vm_compute in Eg; injection Eg as <-;
  split; [split; [apply eps_free_b_ok|apply eof_free_b_ok]|apply start_fresh_b_ok]; reflexivity.

Lemma at_split (l : list sym) : forall d x, nth_error l d = Some x -> l = firstn d l ++ x :: skipn (S d) l.
Proof. induction l as [|y l IH]; intros [|d] x H; try discriminate; [injection H as ->; reflexivity|]. cbn [firstn skipn app]. f_equal. apply IH, H. Qed.

Section Regular.
  Variables (g : grammar) (start : str).
  Hypothesis W : wf_grammar g start.

  Lemma tok_eof : nth_error (g_tokens g) 0 = Some SEof.
  Proof using W. destruct (wg_tokens _ _ W) as (l & -> & _). reflexivity. Qed.

  (** Right-linear: the only lookahead is the end. *)
  Lemma right_la (K : lrset) : right_linear g -> (forall p d k, K p d k -> k = 0) -> forall p d k, clo g (F_std g) K p d k -> k = 0.
  Proof using W.
    intros Hr HK p d k H. induction H as [p d k H|p d k a q pq b k' H IH Hs Hq Ha HF Hk]; [eapply HK; eauto|]. subst k.
    destruct Hs as (pr & Hp & Hx). pose proof (at_split _ _ _ Hx) as E. pose proof (Hr pr (nth_error_In _ _ Hp) _ _ _ E) as Er.
    unfold rest in HF. rewrite Hp, Er in HF. rewrite tok_eof in Ha. injection Ha as <-. destruct HF as (_ & w & Hd). cbn [app] in Hd.
    assert (E' : b = SEof /\ w = []) by (inversion Hd as [|u v w' H1 H2]; subst; [auto|]; inversion H1 as [u A b' c HR EE]; destruct u as [|? [|]]; discriminate EE).
    destruct E' as [-> ->]. destruct Hk as [Hk1 Hk2]. destruct k' as [|k']; auto. destruct (Hk2 0); [lia|apply tok_eof].
  Qed.
  Lemma right_state (I : lrset) : right_linear g -> lr_state g (F_std g) I -> forall p d k, I p d k -> k = 0.
  Proof using W.
    intros Hr. induction 1 as [|I x _ IH _]; apply right_la; auto; [intros p d k (_ & _ & ->); auto|]. intros p d k (d' & _ & H & _). eapply IH; eauto.
  Qed.

  (** Left-linear: behind the initial state, a state is what begins with some symbols. *)
  Definition begun (n : nat) (a : list sym) : lrset := fun p d k =>
    d = n /\ clo g (F_std g) init_set p 0 k /\ exists pr, nth_error (g_prods g) p = Some pr /\ firstn n (p_syms pr) = a.
  Lemma clo_none (K : lrset) : (forall p d k A, K p d k -> ~ sym_at g p d (SNon A)) -> set_eq (clo g (F_std g) K) K.
  Proof. intros H p d k. split; [|apply clo_base]. induction 1 as [|p d k a q pq b k' H1 IH Hs _ _ _ _]; auto. destruct (H _ _ _ _ IH Hs). Qed.
  Lemma init_zero p d k : clo g (F_std g) init_set p d k -> d = 0.
  Proof. destruct 1 as [p d k (_ & -> & _)|]; auto. Qed.
  Lemma firstn_snoc (l : list sym) : forall n x, nth_error l n = Some x -> firstn (S n) l = firstn n l ++ [x].
  Proof. induction l as [|y l IH]; intros [|n] x H; try discriminate; [injection H as ->; reflexivity|]. cbn [firstn app]. f_equal. apply IH, H. Qed.
  Lemma left_state (I : lrset) : left_linear g -> lr_state g (F_std g) I -> I = clo g (F_std g) init_set \/ exists n a, length a = S n /\ set_eq I (begun (S n) a).
  Proof using W.
    intros Hl. induction 1 as [|I x HI IH Hne]; [auto|right].
    assert (M : exists n a, length a = S n /\ set_eq (move g I x) (begun (S n) a)).
    { destruct IH as [->|(n & a & En & Hq)].
      - exists 0, [x]. split; auto. intros p d k. split.
        + intros (d' & -> & H & (pr & Hp & Hx)). pose proof (init_zero _ _ _ H) as E0. subst d'. split; [reflexivity|]. split; [exact H|]. exists pr. split; auto. destruct (p_syms pr); inversion Hx; auto.
        + intros (-> & H & (pr & Hp & Hx)). exists 0. split; [reflexivity|]. split; [exact H|]. exists pr. split; auto. destruct (p_syms pr); inversion Hx; auto.
      - exists (S n), (a ++ [x]). split; [rewrite app_length, En; simpl; lia|]. intros p d k. split.
        + intros (d' & -> & H & (pr & Hp & Hx)). apply Hq in H as (-> & H & pr' & Hp' & Ea). rewrite Hp in Hp'. injection Hp' as <-.
          split; auto. split; auto. exists pr. split; auto. rewrite (firstn_snoc _ _ _ Hx). congruence.
        + intros (-> & H & (pr & Hp & Hx)). exists (S n). split; auto.
          assert (Hn : nth_error (p_syms pr) (S n) = Some x).
          { rewrite <- (firstn_skipn (S (S n)) (p_syms pr)), Hx, nth_error_app1 by (rewrite app_length, En; simpl; lia). rewrite nth_error_app2, En, Nat.sub_diag by lia. reflexivity. }
          split; [|exists pr; auto]. apply Hq. split; auto. split; auto. exists pr. split; auto. rewrite (firstn_snoc _ _ _ Hn) in Hx. apply app_inj_tail in Hx as [Hx _]. exact Hx. }
    destruct M as (n & a & En & Hq). exists n, a. split; auto. refine (set_eq_trans _ _ _ (clo_none _ _) Hq).
    intros p d k A H (pr & Hp & Hx). apply Hq in H as (-> & _). pose proof (Hl pr (nth_error_In _ _ Hp) _ _ _ (at_split _ _ _ Hx)) as E.
    destruct (p_syms pr); [discriminate Hx|discriminate E].
  Qed.

  Lemma regular_cores (I J : lrset) : regular g -> lr_state g (F_std g) I -> lr_state g (F_std g) J -> same_core I J -> set_eq I J.
  Proof using W.
    intros [Hr|Hl] HI HJ Hc.
    - assert (G : forall I J, lr_state g (F_std g) I -> lr_state g (F_std g) J -> same_core I J -> forall p d k, I p d k -> J p d k).
      { intros I' J' HI' HJ' Hc' p d k H. rewrite (right_state _ Hr HI' _ _ _ H). destruct (proj1 (Hc' p d) (ex_intro _ k H)) as [k' H']. rewrite (right_state _ Hr HJ' _ _ _ H') in H'. exact H'. }
      intros p d k. split; [apply G; auto|]. apply G; auto. intros p' d'. symmetry. apply Hc.
    - assert (N : exists p d k, I p d k) by (destruct HI as [|I' x _ (p & d & k & H)]; [exists 0, 0, 0; apply clo_base; repeat split|exists p, d, k; apply clo_base, H]).
      destruct N as (p & d & k & Hk). destruct (proj1 (Hc p d) (ex_intro _ k Hk)) as [k' Hk'].
      destruct (left_state _ Hl HI) as [->|(n & a & En & Hq)], (left_state _ Hl HJ) as [->|(n' & a' & En' & Hq')].
      + intros ? ? ?. reflexivity.
      + apply init_zero in Hk. destruct (proj1 (Hq' _ _ _) Hk') as (E & _). congruence.
      + apply init_zero in Hk'. destruct (proj1 (Hq _ _ _) Hk) as (E & _). congruence.
      + destruct (proj1 (Hq _ _ _) Hk) as (-> & _ & pr & Hp & Ea). destruct (proj1 (Hq' _ _ _) Hk') as (E & _ & pr' & Hp' & Ea'). injection E as <-. rewrite Hp in Hp'. injection Hp' as <-.
        rewrite Ea in Ea'. subst a'. exact (set_eq_trans _ _ _ Hq (set_eq_sym _ _ Hq')).
  Qed.
End Regular.

(** ** C75 *)

(** No transition is missing. *)
Theorem C75_closed :
  forall ast g, grammar_from_ast ast = Ok g -> eps_free g -> regular g -> forall hash t, make_tables hash g = Ok t -> closed g t.
Proof.
  intros ast g Hg He Hr hash t Ht. destruct (grammar_from_ast_ok _ _ Hg) as (s & _ & W & _).
  apply (C28_closed_of_distinct_cores _ _ Hg He _ _ Ht). intros I J. apply (regular_cores g _ W I J Hr).
Qed.
Print Assumptions C75_closed.

(** Exactly the sentences are accepted, everything else is reported, on every input the parser stops,
    and a sentence has one tree. *)
Theorem C75_exact :
  forall ast g st, grammar_from_ast ast = Ok g -> find ap_start ast = Some st -> plain g -> start_fresh g -> regular g ->
  forall hash t, make_tables hash g = Ok t ->
  forall tokens w, ended tokens w ->
  ((exists ps, parse_impl g t tokens = Ok ps) <-> sentence g (ap_name st) w) /\
  (parse_impl g t tokens = Panic PInvalidToken <-> ~ sentence g (ap_name st) w) /\
  (exists a n c, nth_error tokens 0 = Some a /\ nsteps (parse_step g t tokens) n (parse_init a) c /\ parse_step g t tokens c = inr (parse_impl g t tokens)) /\
  (forall tr tr', parse_tree g (ap_name st) w tr -> parse_tree g (ap_name st) w tr' -> tr = tr').
Proof.
  intros ast g s Hg Hs Hp Hf Hr hash t Ht tokens w Hw. pose proof (C75_closed _ _ Hg (proj1 Hp) Hr _ _ Ht) as Hc.
  destruct (C30_accepts_exactly_the_sentences_partial _ _ _ Hg Hs Hp Hf _ _ Ht Hc _ _ Hw) as [H1 H2]. split; [exact H1|]. split; [exact H2|].
  split; [exact (C31_terminates_partial _ _ Hg Hp Hf _ _ Ht Hc _ _ Hw)|]. intros tr tr'. eapply C33_unambiguous_partial; eauto.
Qed.
Print Assumptions C75_exact.

(** If moreover the next token tells the rule and every used symbol derives something, there are
    tables: nothing is left to ask for. *)
Theorem C75_right_linear :
  forall ast g st, grammar_from_ast ast = Ok g -> find ap_start ast = Some st -> plain g -> start_fresh g -> right_linear g -> ll1 g -> useful g ->
  exists lr0, items g = Ok lr0 /\ forall hash, collision_free hash lr0 -> exists t, make_tables hash g = Ok t /\
  forall tokens w, ended tokens w ->
  ((exists ps, parse_impl g t tokens = Ok ps) <-> sentence g (ap_name st) w) /\
  (parse_impl g t tokens = Panic PInvalidToken <-> ~ sentence g (ap_name st) w).
Proof.
  intros ast g s Hg Hs Hp Hf Hr Hll Hu. destruct (C73_tables _ _ Hg (proj1 Hp) Hll Hu) as (lr0 & El & H). exists lr0. split; auto.
  intros hash Hh. destruct (H hash Hh) as [t Ht]. exists t. split; auto. intros tokens w Hw.
  destruct (C75_exact _ _ _ Hg Hs Hp Hf (or_introl Hr) _ _ Ht _ _ Hw) as (H1 & H2 & _). auto.
Qed.
Print Assumptions C75_right_linear.

(** S -> a S | b (right-linear) and S -> S a | b (left-linear). *)
Definition w75r : list aprod := [PS 83 [[T 97; V 83]; [T 98]]].
Definition w75l : list aprod := [PS 83 [[V 83; T 97]; [T 98]]].
Definition linear_b (last : bool) (g : grammar) : bool :=
  forallb (fun p => forallb (fun x => is_term x) (if last then removelast (p_syms p) else tl (p_syms p))) (g_prods g).
Lemma linear_b_right g : linear_b true g = true -> right_linear g.
Proof.
  unfold linear_b. rewrite forallb_forall. intros H p Hp u A v E. specialize (H p Hp). cbn beta iota in H. rewrite forallb_forall in H.
  destruct v as [|y v]; auto. exfalso. specialize (H (SNon A)). rewrite E in H. replace (removelast (u ++ SNon A :: y :: v)) with (u ++ SNon A :: removelast (y :: v)) in H.
  - specialize (H (in_elt _ _ _)). discriminate H.
  - rewrite removelast_app by discriminate. reflexivity.
Qed.
Lemma linear_b_left g : linear_b false g = true -> left_linear g.
Proof.
  unfold linear_b. rewrite forallb_forall. intros H p Hp u A v E. specialize (H p Hp). cbn beta iota in H. rewrite forallb_forall in H.
  destruct u as [|y u]; auto. exfalso. specialize (H (SNon A)). rewrite E in H. cbn [app tl] in H. specialize (H (in_elt _ _ _)). discriminate H.
Qed.
Example C75_nonvacuous :
  (exists g t, tables_of w75r g t /\ well_formed g /\ right_linear g /\ ll1 g /\ useful g /\ exists ps, parse_impl g t [1; 1; 2; 0] = Ok ps) /\
  (exists g t, tables_of w75l g t /\ well_formed g /\ left_linear g /\ exists ps, parse_impl g t [2; 1; 1; 0] = Ok ps).
Proof.
  split.
  - destruct (grammar_from_ast w75r) as [g| |] eqn:Eg; [|vm_compute in Eg; discriminate Eg..].
    destruct (make_tables ehash g) as [t| |] eqn:Et; [|vm_compute in Eg; injection Eg as <-; vm_compute in Et; discriminate Et..].
    exists g, t. split; [apply tables_of_any; auto|]. assert (Hwf : well_formed g) by wf_ok Eg. split; [exact Hwf|].
    split; [apply linear_b_right; open Eg Et; compute_ok|]. split; [apply (ll1_b_ok _ _ Eg (proj1 (proj1 Hwf))); clear Hwf; open Eg Et; compute_ok|]. clear Hwf. open Eg Et.
    split; [apply productive_useful, (productive_b_ok _ [Node 2 [Leaf (SStr [98]%N)]]); compute_ok|]. eexists. compute_ok.
  - destruct (grammar_from_ast w75l) as [g| |] eqn:Eg; [|vm_compute in Eg; discriminate Eg..].
    destruct (make_tables ehash g) as [t| |] eqn:Et; [|vm_compute in Eg; injection Eg as <-; vm_compute in Et; discriminate Et..].
    exists g, t. split; [apply tables_of_any; auto|]. split; [wf_ok Eg|]. split; [apply linear_b_left; open Eg Et; compute_ok|]. open Eg Et. eexists. compute_ok.
Qed.
