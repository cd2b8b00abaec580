(** C28 again: what merging does to the transitions. *)
From Verif Require Import Base Grammar GrammarSpec GrammarProofs GrammarCheck First FirstProofs Item ItemSpec ItemProofs ItemPlain
  Table TableSpec MergeProofs TableProofs TableFacts Witness PropsGrammar PropsTable Parse ParseSpec ParseCheck TreeFacts Auto ParseProofs PropsParse MergeSpec.

Local Ltac compute_ok := vm_compute; reflexivity.
Local Ltac open Eg Et := vm_compute in Eg; injection Eg as <-; vm_compute in Et; injection Et as <-.
Local Ltac wf_ok Eg := vm_compute in Eg; injection Eg as <-;
  split; [split; [apply eps_free_b_ok|apply eof_free_b_ok]|apply start_fresh_b_ok]; reflexivity.

(** Closure and moving the dot commute with unions. *)

Lemma goto_union g (P : lrset -> Prop) x : set_eq (goto_of g (union_of P) x) (union_of (fun K => exists I, P I /\ K = goto_of g I x)).
Proof.
  intros p d k. split.
  - intros H. induction H as [p d k (d' & -> & (I & HI & Hk) & Hx)|p d k a q pq b k' _ (K & (I & HI & ->) & HK) Hs Hq Ha HF Hk].
    + exists (goto_of g I x). split; eauto. apply clo_base. exists d'. auto.
    + exists (goto_of g I x). split; eauto. refine (clo_rule g (F_std g) (move g I x) p d k a q pq b k' HK Hs Hq Ha HF Hk).
  - intros (K & (I & HI & ->) & HK). induction HK as [p d k (d' & -> & Hk & Hx)|p d k a q pq b k' _ IH Hs Hq Ha HF Hk].
    + apply clo_base. exists d'. split; auto. split; auto. exists I. auto.
    + refine (clo_rule g (F_std g) (move g (union_of P) x) p d k a q pq b k' IH Hs Hq Ha HF Hk).
Qed.

Section Merge.
  Variables (g : grammar) (start : str).
  Hypothesis W : wf_grammar g start.
  Hypothesis He : eps_free g.
  Hypothesis HG : Good g.

  Lemma std_next (I : lrset) : lr_state g (F_std g) I -> forall p d k q pq, I p d k -> sym_at g p d (SNon (p_name pq)) -> nth_error (g_prods g) q = Some pq -> exists k', I q 0 k'.
  Proof using He HG W.
    intros HI p d k q pq Hk Hs Hq. destruct (lr_std_code g _ W He HG I HI) as (J & HJ & E). apply E in Hk.
    destruct (HG J HJ _ _ _ Hk) as [_ H1]. destruct (H1 _ Hs) as (_ & a & Ha & s & Es & Hin').
    destruct (first_at_nonempty g _ W He _ _ _ _ _ Ha Es) as [y Hy].
    destruct (proj1 (get_token_idx_In g y) (Hin' y Hy)) as [k' Hk']. apply tok_idx in Hk'.
    exists k'. apply E. apply (lr_closed g _ HJ).
    refine (clo_rule g (F_code g) J p d k a q pq y k' (clo_base _ _ _ _ _ _ Hk) Hs Hq Ha (ex_intro _ s (conj Es Hy)) Hk').
  Qed.
  Lemma goto_state_of (I : lrset) x : lr_state g (F_std g) I -> (exists p d k, I p d k /\ sym_at g p d x) -> lr_state g (F_std g) (goto_of g I x).
  Proof. intros HI (p & d & k & Hk & Hx). apply lr_goto; auto. exists p, (S d), k, d. auto. Qed.
  Lemma goto_core_le (I J : lrset) x : lr_state g (F_std g) J -> (exists p d k, J p d k /\ sym_at g p d x) ->
    same_core I J -> forall p d k, goto_of g I x p d k -> exists k', goto_of g J x p d k'.
  Proof using He HG W.
    intros HJ Hx Hc p d k H. induction H as [p d k (d' & -> & Hk & Hs)|p d k a q pq b k' _ [l IH] Hs Hq Ha HF Hk].
    - destruct (proj1 (Hc p d') (ex_intro _ k Hk)) as [k' Hk']. exists k'. apply clo_base. exists d'. auto.
    - eapply std_next; eauto. apply goto_state_of; auto.
  Qed.
  Lemma goto_core (I J : lrset) x : lr_state g (F_std g) I -> lr_state g (F_std g) J -> (exists p d k, I p d k /\ sym_at g p d x) ->
    same_core I J -> same_core (goto_of g I x) (goto_of g J x).
  Proof using He HG W.
    intros HI HJ Hx Hc. assert (Hx' : exists p d k, J p d k /\ sym_at g p d x).
    { destruct Hx as (p & d & k & Hk & Hs). destruct (proj1 (Hc p d) (ex_intro _ k Hk)) as [k' Hk']. exists p, d, k'. auto. }
    intros p d. split; intros [k Hk]; [apply (goto_core_le I J x HJ Hx' Hc _ _ _ Hk)|].
    apply (goto_core_le J I x HI Hx) with (k := k); auto. intros p' d'. symmetry. apply Hc.
  Qed.

  (** A transition is there iff what the states with this core go to together is a state, or all
      states with the core it leads to. *)
  Lemma found_union (I : lrset) x : lr_state g (F_std g) I -> (exists p d k, I p d k /\ sym_at g p d x) ->
    found g (F_std g) (lalr_of g (F_std g) I) x <->
    (exists K, lr_state g (F_std g) K /\ set_eq (reach g I x) K) \/
    (forall K, lr_state g (F_std g) K -> same_core K (goto_of g I x) -> forall p d k, K p d k -> reach g I x p d k).
  Proof using He HG W.
    intros HI Hx.
    assert (E : set_eq (clo g (F_std g) (move g (lalr_of g (F_std g) I) x)) (reach g I x)).
    { refine (set_eq_trans _ _ _ _ (goto_union g (fun I' => lr_state g (F_std g) I' /\ same_core I I') x)). refine (clo_eq g _ _ (move_eq g _ _ x _)).
      intros p' d' k'. split; [intros (I' & H1 & H2 & H3); exists I'; auto|intros (I' & (H1 & H2) & H3); exists I'; auto]. }
    assert (Hc : same_core (reach g I x) (goto_of g I x)).
    { intros p d. split.
      - intros (k & K & (I' & (HI' & Hc') & ->) & HK). apply (proj2 (goto_core I I' x HI HI' Hx Hc' p d)). eauto.
      - intros [k Hk]. exists k, (goto_of g I x). split; auto. exists I. split; auto. split; auto. intros ? ?. reflexivity. }
    split.
    - intros (K & HK & [Hq|Hq]); [left; exists K; split; auto; exact (set_eq_trans _ _ _ (set_eq_sym _ _ E) Hq)|right].
      intros K' HK' Hc' p d k Hk. apply E, Hq. exists K'. split; auto. split; auto.
      intros p' d'. assert (C1 : same_core (reach g I x) (lalr_of g (F_std g) K)) by (apply (same_core_eq _ _ _ (set_eq_trans _ _ _ (set_eq_sym _ _ E) Hq)); intros ? ?; reflexivity).
      rewrite (Hc' p' d'), <- (Hc p' d'), (C1 p' d'). split; [intros [l Hl]; exists l, K; split; auto; split; auto; intros ? ?; reflexivity|].
      intros (l & K2 & _ & HC2 & H2). apply HC2. eauto.
    - intros [(K & HK & Hq)|H]; [exists K; split; auto; left; exact (set_eq_trans _ _ _ E Hq)|].
      exists (goto_of g I x). split; [apply goto_state_of; auto|right]. intros p d k. rewrite (E p d k). split.
      + intros (K & (I' & (HI' & Hc') & ->) & HK). exists (goto_of g I' x). split; [|split; [apply goto_core; auto|exact HK]].
        apply goto_state_of; auto. destruct Hx as (p1 & d1 & k1 & Hk1 & Hs1). destruct (proj1 (Hc' p1 d1) (ex_intro _ _ Hk1)) as [k2 Hk2]. eauto 10.
      + intros (K & HK & HcK & HKk). apply (H K HK); auto. intros p' d'. symmetry. apply HcK.
  Qed.

  (** Finite unions. *)
  Variable lr0 : list item_set.
  Hypothesis Hlr : items g = Ok lr0.
  Hypothesis Hpairs : pairs_kept g.

  Definition pair_of (I J : lrset) : lrset := union_of (fun H => H = I \/ H = J).
  Lemma pairs_list (R : lrset) (l : list lrset) : lr_state g (F_std g) R -> Forall (fun K => lr_state g (F_std g) K /\ same_core R K) l ->
    exists K, lr_state g (F_std g) K /\ same_core R K /\
      (set_eq (union_of (fun H => H = R \/ In H l)) K \/ set_eq (union_of (fun H => H = R \/ In H l)) (lalr_of g (F_std g) R)).
  Proof using Hpairs.
    intros HR. induction l as [|J l IH]; intros Hl.
    - exists R. split; auto. split; [intros ? ?; reflexivity|]. left. intros p d k. split; [intros (H & [->|[]] & Hk); exact Hk|intros Hk; exists R; auto].
    - inversion Hl as [|? ? [HJ HcJ] Hl']; subst. destruct (IH Hl') as (K & HK & HcK & [Hq|Hq]).
      + assert (E : set_eq (union_of (fun H => H = R \/ In H (J :: l))) (pair_of K J)).
        { intros p d k. split.
          - intros (H & [->|[<-|Hin]] & Hk); [exists K; split; [auto|apply Hq; exists R; auto]|exists J; auto|exists K; split; [auto|apply Hq; exists H; auto]].
          - intros (H & [->| ->] & Hk); [apply Hq in Hk as (H & [->|Hin] & Hk); [exists R|exists H]; split; simpl; auto|exists J; split; simpl; auto]. }
        assert (HcKJ : same_core K J) by (intros p d; rewrite <- (HcK p d); apply HcJ).
        destruct (Hpairs K J HK HJ HcKJ) as [(M & HM & Hm)|Hm].
        * exists M. split; auto. split; [|left; exact (set_eq_trans _ _ _ E Hm)].
          intros p d. rewrite (HcK p d). split; intros [k Hk].
          -- exists k. apply Hm. exists K. auto.
          -- apply Hm in Hk as (H & [->| ->] & Hk); [eauto|apply HcKJ; eauto].
        * exists R. split; auto. split; [intros ? ?; reflexivity|]. right. refine (set_eq_trans _ _ _ E (set_eq_trans _ _ _ Hm _)).
          intros p d k. split; intros (H & H1 & H2 & H3); exists H; (split; [auto|]); (split; [|auto]); intros p' d'; [rewrite (HcK p' d')|rewrite <- (HcK p' d')]; apply H2.
      + exists R. split; auto. split; [intros ? ?; reflexivity|]. right. intros p d k. rewrite <- (Hq p d k). split.
        * intros (H & [->|[<-|Hin]] & Hk); [exists R; auto| |exists H; auto]. apply Hq. exists J. auto.
        * intros (H & [->|Hin] & Hk); [exists R|exists H]; split; simpl; auto.
  Qed.

  (** The states with one core, in a list. *)
  Lemma core_list (I : lrset) : lr_state g (F_std g) I ->
    exists L, Forall (fun J => lr_state g (F_std g) J /\ same_core I J) L /\
      forall I', lr_state g (F_std g) I' -> same_core I I' -> exists J, In J L /\ set_eq I' J.
  Proof using W He Hlr.
    intros HI. destruct (lr_std_all g _ W He lr0 Hlr I HI) as (s0 & Hs0 & Hr0). destruct (lr_std_in g _ W He lr0 Hlr s0 Hs0) as (Hw0 & _).
    assert (G : forall l, incl l lr0 -> exists L, Forall (fun J => lr_state g (F_std g) J /\ same_core I J) L /\
      forall I' s, In s l -> represents s I' -> same_core I I' -> exists J, In J L /\ set_eq I' J).
    { induction l as [|s l IH]; intros Hi; [exists []; split; [constructor|intros ? ? []]|]. destruct IH as (L & HL & HA); [intros y Hy; apply Hi; right; exact Hy|].
      destruct (lr_std_in g _ W He lr0 Hlr s (Hi s (or_introl eq_refl))) as (Hw & J & HJ & HrJ).
      destruct (ord_dec (core s0) (core s)) as [Ec|Ec].
      - exists (J :: L). split; [constructor; auto; split; auto; apply (same_core_sets s0 s I J); auto|].
        intros I' s' [<-|Hs'] Hr Hc; [exists J; split; [left; auto|]; intros p d k; rewrite <- (Hr p d k); apply HrJ|]. destruct (HA I' s' Hs' Hr Hc) as (J' & H1 & H2). exists J'. split; auto. right. auto.
      - exists L. split; auto. intros I' s' [<-|Hs'] Hr Hc; [|eauto]. destruct Ec. apply (same_core_sets s0 s I I'); auto. }
    destruct (G lr0 (incl_refl _)) as (L & HL & HA). exists L. split; auto. intros I' HI' Hc. destruct (lr_std_all g _ W He lr0 Hlr I' HI') as (s & Hs & Hr). eauto.
  Qed.

  Lemma pairs_found (I : lrset) x : lr_state g (F_std g) I -> (exists p d k, I p d k /\ sym_at g p d x) -> found g (F_std g) (lalr_of g (F_std g) I) x.
  Proof using W He HG Hlr Hpairs.
    intros HI Hx. apply (found_union I x HI Hx). destruct (core_list I HI) as (L & HL & HA).
    assert (Hx' : forall J, same_core I J -> exists p d k, J p d k /\ sym_at g p d x).
    { destruct Hx as (p & d & k & Hk & Hs). intros J Hc. destruct (proj1 (Hc p d) (ex_intro _ k Hk)) as [k' Hk']. eauto. }
    assert (E : set_eq (reach g I x) (union_of (fun H => H = goto_of g I x \/ In H (map (fun J => goto_of g J x) L)))).
    { intros p d k. split.
      - intros (K & (I' & (HI' & Hc) & ->) & Hk). destruct (HA I' HI' Hc) as (J & HJ & Hq). exists (goto_of g J x). split; [right; apply in_map_iff; eauto|].
        apply (clo_eq g _ _ (move_eq g _ _ x Hq)). exact Hk.
      - intros (K & [->|Hin] & Hk); [exists (goto_of g I x); split; auto; exists I; split; auto; split; auto; intros ? ?; reflexivity|].
        apply in_map_iff in Hin as (J & <- & HJ). rewrite Forall_forall in HL. exists (goto_of g J x). split; auto. exists J. split; auto. }
    destruct (pairs_list (goto_of g I x) (map (fun J => goto_of g J x) L)) as (K & HK & HcK & [Hq|Hq]).
    - apply goto_state_of; auto.
    - rewrite Forall_forall in *. intros K Hin. apply in_map_iff in Hin as (J & <- & HJ). destruct (HL J HJ) as [HJs Hc]. split; [apply goto_state_of; auto|apply goto_core; auto].
    - left. exists K. split; auto. exact (set_eq_trans _ _ _ E Hq).
    - right. intros K' HK' Hc' p d k Hk. apply E, Hq. exists K'. split; auto. split; auto. intros p' d'. symmetry. apply Hc'.
  Qed.
End Merge.

(** ** C28 *)

(** Which transitions are missing, in terms of LR(1) states: those where what the merged states go
    to is not one state, and some state with the core they go to is reached otherwise and brings
    something new. *)
Theorem C28_present_iff :
  forall ast g, grammar_from_ast ast = Ok g -> eps_free g -> forall hash t, make_tables hash g = Ok t ->
  forall i s p d k x, nth_error (t_states t) i = Some s -> has s p d k -> sym_at g p d x ->
  exists I, lr_state g (F_std g) I /\ set_eq (has s) (lalr_of g (F_std g) I) /\
  let present := (exists K, lr_state g (F_std g) K /\ set_eq (reach g I x) K) \/
    (forall K, lr_state g (F_std g) K -> same_core K (goto_of g I x) -> forall p d k, K p d k -> reach g I x p d k) in
  (terminal x -> exists kx, tok g kx x /\ ((exists j, tbl_get (t_action t) i kx = Some (Shift j)) <-> present)) /\
  (forall A, x = SNon A -> (exists j, tbl_get (t_goto t) i A = Some j) <-> present).
Proof.
  intros ast g Hg He hash t Ht i s p d k x Hs Hk Hx. destruct (grammar_from_ast_ok _ _ Hg) as (st & _ & W & _).
  destruct (make_tables_built _ _ _ _ W Ht) as (lr0 & m & B). destruct (lr_final g _ W lr0 (b_items _ _ _ _ _ B)) as (_ & _ & _ & _ & HG).
  destruct (C26_states_are_lalr _ _ Hg He _ _ Ht) as (H1 & _). destruct (H1 i s Hs) as (I & HI & Hq). exists I. split; auto. split; auto.
  assert (Hx' : exists p d k, I p d k /\ sym_at g p d x).
  { apply Hq in Hk as (J & _ & Hc & Hk). destruct (proj2 (Hc p d) (ex_intro _ k Hk)) as [k' Hk']. eauto. }
  pose proof (found_union g _ W He HG I x HI Hx') as F. pose proof (found_eq g _ _ x Hq) as F'.
  destruct (C28_transitions_iff _ _ Hg He _ _ Ht i s p d k x Hs Hk Hx) as [A1 A2]. cbv zeta. split.
  - intros Htx. destruct (A1 Htx) as (kx & Hkx & A). exists kx. split; auto. rewrite A, F'. exact F.
  - intros A E. rewrite (A2 A E), F'. exact F.
Qed.
Print Assumptions C28_present_iff.

(** None is missing if any two states with the same core are together a state or all states with
    that core; missing: the general case, where it is false. *)
Theorem C28_pairs_partial :
  forall ast g, grammar_from_ast ast = Ok g -> eps_free g -> pairs_kept g -> forall hash t, make_tables hash g = Ok t -> closed g t.
Proof.
  intros ast g Hg He Hpairs hash t Ht i p d k x (s & Hs & Hk) Hx. destruct (grammar_from_ast_ok _ _ Hg) as (st & _ & W & _).
  destruct (make_tables_built _ _ _ _ W Ht) as (lr0 & m & B). destruct (lr_final g _ W lr0 (b_items _ _ _ _ _ B)) as (_ & _ & _ & _ & HG).
  destruct (C26_states_are_lalr _ _ Hg He _ _ Ht) as (H1 & _). destruct (H1 i s Hs) as (I & HI & Hq).
  assert (Hx' : exists p d k, I p d k /\ sym_at g p d x).
  { apply Hq in Hk as (J & _ & Hc & Hk). destruct (proj2 (Hc p d) (ex_intro _ k Hk)) as [k' Hk']. eauto. }
  pose proof (pairs_found g _ W He HG lr0 (b_items _ _ _ _ _ B) Hpairs I x HI Hx') as F. apply (found_eq g _ _ x Hq) in F.
  destruct (C28_transitions_iff _ _ Hg He _ _ Ht i s p d k x Hs Hk Hx) as [A1 A2]. split.
  - intros Htx kx Hkx. destruct (A1 Htx) as (kx' & Hkx' & A). replace kx with kx' by (apply tok_idx in Hkx, Hkx'; congruence). apply A, F.
  - intros A E. apply (A2 A E), F.
Qed.
Print Assumptions C28_pairs_partial.

(** In particular if at most two LR(1) states have the same core. *)
Theorem C28_two_partial :
  forall ast g, grammar_from_ast ast = Ok g -> eps_free g ->
  (forall I J K, lr_state g (F_std g) I -> lr_state g (F_std g) J -> lr_state g (F_std g) K -> same_core I J -> same_core I K ->
     set_eq I J \/ set_eq I K \/ set_eq J K) ->
  forall hash t, make_tables hash g = Ok t -> closed g t.
Proof.
  intros ast g Hg He H2 hash t Ht. apply (C28_pairs_partial _ _ Hg He) with (hash := hash); auto. intros I J HI HJ Hc.
  destruct (grammar_from_ast_ok _ _ Hg) as (st & _ & W & _). destruct (make_tables_built _ _ _ _ W Ht) as (lr0 & m & B). pose proof (b_items _ _ _ _ _ B) as El.
  destruct (lr_std_all g _ W He lr0 El I HI) as (s & Hs & Hr). destruct (lr_std_all g _ W He lr0 El J HJ) as (s' & Hs' & Hr').
  destruct (ord_dec s s') as [E|E].
  - left. exists I. split; auto. intros p d k. split; [intros (K & [->| ->] & Hk)|intros Hk; exists I; auto]; auto. apply Hr' in Hk. rewrite <- E in Hk. apply Hr, Hk.
  - right. intros p d k. split.
    + intros (K & [->| ->] & Hk); [exists I; split; [auto|split; [intros ? ?; reflexivity|auto]]|exists J; auto].
    + intros (K & HK & HcK & Hk). destruct (H2 I J K HI HJ HK Hc HcK) as [Q|[Q|Q]].
      * exfalso. apply E. apply (wf_set_ext s s'); [apply (lr_std_in g _ W He lr0 El s Hs)|apply (lr_std_in g _ W He lr0 El s' Hs')|]. intros q e l. rewrite (Hr q e l), (Hr' q e l). apply Q.
      * exists I. split; auto. apply Q, Hk.
      * exists J. split; auto. apply Q, Hk.
Qed.
Print Assumptions C28_two_partial.

(** Arithmetic: E -> E "+" T | T; T -> T "*" F | F; F -> "(" E ")" | x has 22 LR(1) states and 12
    LALR states; two states at most have the same core. *)
Definition w_arith : list aprod :=
  [PS 69 [[V 69; T 43; V 84]; [V 84]]; P 84 [[V 84; T 42; V 70]; [V 70]]; P 70 [[T 40; V 69; T 41]; [T 120]]].
Definition two_b (lr0 : list item_set) : bool :=
  forallb (fun a => forallb (fun b => negb (eqb (core a) (core b)) || forallb (fun c => negb (eqb (core a) (core c)) || eqb a b || eqb a c || eqb b c) lr0) lr0) lr0.
Example C28_two_nonvacuous : exists g lr0 t, tables_of w_arith g t /\ well_formed g /\ items g = Ok lr0 /\ length lr0 = 22 /\ length (t_states t) = 12 /\
  (forall I J K, lr_state g (F_std g) I -> lr_state g (F_std g) J -> lr_state g (F_std g) K -> same_core I J -> same_core I K ->
     set_eq I J \/ set_eq I K \/ set_eq J K).
Proof.
  destruct (grammar_from_ast w_arith) as [g| |] eqn:Eg; [|vm_compute in Eg; discriminate Eg..].
  destruct (items g) as [lr0| |] eqn:El; [|vm_compute in Eg; injection Eg as <-; vm_compute in El; discriminate El..].
  destruct (make_tables ehash g) as [t| |] eqn:Et; [|vm_compute in Eg; injection Eg as <-; vm_compute in Et; discriminate Et..].
  exists g, lr0, t. split; [apply tables_of_any; auto|]. assert (Hwf : well_formed g) by wf_ok Eg. split; [exact Hwf|]. split; auto.
  destruct (grammar_from_ast_ok _ _ Eg) as (st & _ & W & _). pose proof (proj1 (proj1 Hwf)) as He.
  split; [clear W Hwf He; open Eg El; reflexivity|]. split; [clear W Hwf He; open Eg Et; reflexivity|].
  assert (Hb : two_b lr0 = true) by (clear W Hwf He; open Eg El; compute_ok).
  intros I J K HI HJ HK C1 C2.
  destruct (lr_std_all g _ W He lr0 El I HI) as (a & Ha & Ra), (lr_std_all g _ W He lr0 El J HJ) as (b & Hb' & Rb), (lr_std_all g _ W He lr0 El K HK) as (c & Hc & Rc).
  destruct (lr_std_in g _ W He lr0 El a Ha) as (Wa & _), (lr_std_in g _ W He lr0 El b Hb') as (Wb & _), (lr_std_in g _ W He lr0 El c Hc) as (Wc & _).
  apply (same_core_sets a b I J Wa Wb Ra Rb) in C1. apply (same_core_sets a c I K Wa Wc Ra Rc) in C2.
  unfold two_b in Hb. rewrite forallb_forall in Hb. specialize (Hb a Ha). rewrite forallb_forall in Hb. specialize (Hb b Hb'). rewrite C1, eqb_refl in Hb. cbn [negb orb] in Hb.
  rewrite forallb_forall in Hb. specialize (Hb c Hc). rewrite <- C1, C2, eqb_refl in Hb. cbn [negb orb] in Hb. apply orb_true_iff in Hb as [Hb|Hb]; [apply orb_true_iff in Hb as [Hb|Hb]|]; apply eqb_eq in Hb.
  - left. intros p d k. rewrite <- (Ra p d k), <- (Rb p d k), Hb. reflexivity.
  - right; left. intros p d k. rewrite <- (Ra p d k), <- (Rc p d k), Hb. reflexivity.
  - right; right. intros p d k. rewrite <- (Rb p d k), <- (Rc p d k), Hb. reflexivity.
Qed.
