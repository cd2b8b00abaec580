(** Property C97: whether there is a bound for the stack can be computed from the grammar. *)
From Coq Require Import ListDec.
From Verif Require Import Base Text Grammar GrammarSpec GrammarProofs First FirstProofs Item ItemSpec ItemProofs GrammarCheck Table TableSpec TableProofs TableFacts
  Parse ParseSpec ParseCheck TreeFacts Report ReportSpec ReportProofs Witness
  PropsGrammar PropsTable PropsParse PropsReport PropsRegularStack HeightSpec PropsHeight PropsHeightExact.
Local Open Scope list_scope.

(** Names in a body, and those in the bodies of the rules with one of the names given.  Not in the code. *)
Definition named (l : list sym) : list str := flat_map (fun x => match x with SNon A => [A] | _ => [] end) l.
Definition one_more (g : grammar) (l : list str) : list str :=
  nodup (list_eq_dec N.eq_dec) (l ++ flat_map (fun pr => if existsb (eqb (p_name pr)) l then named (p_syms pr) else []) (g_prods g)).
Definition reached (g : grammar) (A : str) : list str := Nat.iter (length (g_prods g)) (one_more g) [A].
(** Does a name used from the start come back to itself other than at the start of bodies? *)
Definition later_b (g : grammar) (start : str) : bool :=
  let from := reached g start in
  existsb (fun pr => existsb (eqb (p_name pr)) from && existsb (fun B => existsb (eqb (p_name pr)) (reached g B)) (named (tl (p_syms pr)))) (g_prods g).

Lemma named_In l A : In A (named l) <-> In (SNon A) l.
Proof.
  unfold named. rewrite in_flat_map. split.
  - intros (x & Hx & H). destruct x; try contradiction. destruct H as [->|[]]. exact Hx.
  - intros H. exists (SNon A). split; auto. left. reflexivity.
Qed.
Lemma mem_str (A : str) l : existsb (eqb A) l = true <-> In A l.
Proof.
  rewrite existsb_exists. split.
  - intros (x & Hx & E). apply Base.eqb_eq in E. subst. exact Hx.
  - intros H. exists A. split; auto. apply Base.eqb_eq. reflexivity.
Qed.
Lemma one_more_In g l B : In B (one_more g l) <-> In B l \/ exists pr, In pr (g_prods g) /\ In (p_name pr) l /\ In (SNon B) (p_syms pr).
Proof.
  unfold one_more. rewrite nodup_In, in_app_iff, in_flat_map. split; (intros [H|H]; [left; exact H|right]).
  - destruct H as (pr & Hp & H). destruct (existsb (eqb (p_name pr)) l) eqn:E; [|contradiction]. apply mem_str in E. apply named_In in H. eauto.
  - destruct H as (pr & Hp & Hl & H). exists pr. split; auto. apply mem_str in Hl. rewrite Hl. apply named_In, H.
Qed.

(** Ways, with the names of all rules on them. *)
Inductive steps (g : grammar) : str -> str -> list str -> Prop :=
| steps_end A : steps g A A []
| steps_more pr B C l : In pr (g_prods g) -> In (SNon B) (p_syms pr) -> steps g B C l -> steps g (p_name pr) C (p_name pr :: l).
Lemma steps_app g A B C k l : steps g A B k -> steps g B C l -> steps g A C (k ++ l).
Proof. induction 1 as [A|pr B C' k H1 H2 _ IH]; intros H; auto. cbn [app]. econstructor; eauto. Qed.
Lemma steps_split g A C m : steps g A C m -> forall k X l, m = k ++ X :: l -> steps g A X k /\ steps g X C (X :: l).
Proof.
  induction 1 as [A|pr B C m H1 H2 H IH]; intros k X l E; [destruct k; discriminate E|]. destruct k as [|Y k]; injection E as <- ->.
  - split; [constructor|econstructor; eauto].
  - destruct (IH _ _ _ eq_refl) as [J1 J2]. split; auto. econstructor; eauto.
Qed.
Lemma steps_names g A C m : steps g A C m -> incl m (map p_name (g_prods g)).
Proof. induction 1 as [A|pr B C m H1 H2 _ IH]; [intros x []|]. intros x [<-|Hx]; auto. apply in_map, H1. Qed.
Lemma steps_short g A C : forall n m, length m <= n -> steps g A C m -> exists m', steps g A C m' /\ length m' <= length (g_prods g).
Proof.
  induction n as [|n IH]; intros m Hm H.
  - exists m. split; auto. lia.
  - destruct (NoDup_dec (list_eq_dec N.eq_dec) m) as [Hd|Hd].
    + exists m. split; auto. rewrite <- (map_length p_name). apply NoDup_incl_length; auto. eapply steps_names; eauto.
    + apply dup_split in Hd as (k & X & l & l' & ->). destruct (steps_split _ _ _ _ H _ _ _ eq_refl) as [J1 J2].
      destruct (steps_split _ _ _ _ J2 (X :: l) X l' eq_refl) as [_ J3]. apply (IH (k ++ X :: l')); [|eapply steps_app; eauto].
      rewrite !app_length in *. cbn [length] in *. rewrite app_length in Hm. cbn [length] in Hm. lia.
Qed.
Lemma iter_In g A n B : In B (Nat.iter n (one_more g) [A]) <-> exists m, steps g A B m /\ length m <= n.
Proof.
  revert B. induction n as [|n IH]; intros B; cbn [Nat.iter nat_rect].
  - split.
    + intros [<-|[]]. exists []. split; [constructor|auto].
    + intros ([|X m] & H & L); [|cbn in L; lia]. inversion H; subst. left. reflexivity.
  - rewrite one_more_In. change (nat_rect (fun _ => list str) [A] (fun _ => one_more g) n) with (Nat.iter n (one_more g) [A]). rewrite IH. split.
    + intros [(m & H & L)|(pr & Hp & Hl & Hx)]; [exists m; split; auto|]. apply IH in Hl as (m & H & L).
      exists (m ++ [p_name pr]). split; [eapply steps_app; [exact H|econstructor; eauto; constructor]|]. rewrite app_length. cbn [length]. lia.
    + intros (m & H & L). destruct m as [|X m'] using rev_ind; [left; exists []; split; auto; cbn; lia|]. clear IHm'. right.
      destruct (steps_split _ _ _ _ H m' X [] eq_refl) as [J1 J2]. inversion J2 as [|pr B0 ? ? Hp Hx H3]; subst. inversion H3; subst.
      exists pr. split; auto. split; auto. apply IH. exists m'. split; auto. rewrite app_length in L. cbn [length] in L. lia.
Qed.
Lemma reached_In g A B : In B (reached g A) <-> exists m, steps g A B m.
Proof.
  unfold reached. rewrite iter_In. split; [intros (m & H & _); eauto|]. intros (m & H). exact (steps_short g A B _ m (Nat.le_refl _) H).
Qed.
Lemma way_steps g A B : (exists l, way g A B l) <-> exists m, steps g A B m.
Proof.
  split.
  - intros [l H]. induction H as [A|pr B C l H1 H2 _ [m IH]|pr i B C l H1 H2 _ [m IH]]; [exists []; constructor|exists (p_name pr :: m)..];
      (econstructor; [exact H1|eapply nth_error_In, H2|exact IH]).
  - intros [m H]. induction H as [A|pr B C m H1 H2 _ [l IH]]; [exists []; constructor|]. apply In_nth_error in H2 as [[|i] H2].
    + exists l. eapply way_first; eauto.
    + exists (p_name pr :: l). eapply way_later; eauto.
Qed.
(** The first rule of a way that is left later. *)
Lemma way_leaves g A C B l : way g A C (B :: l) -> exists pr i D k k', In pr (g_prods g) /\ nth_error (p_syms pr) (S i) = Some (SNon D) /\ way g A (p_name pr) k /\ way g D C k'.
Proof.
  intros H. remember (B :: l) as m eqn:E. induction H as [A|pr D C m H1 H2 _ IH|pr i D C m H1 H2 H _]; [discriminate E| |].
  - destruct (IH E) as (pr' & i & D' & k & k' & K1 & K2 & K3 & K4). exists pr', i, D', k, k'. split; auto. split; auto. split; auto. eapply way_first; eauto.
  - exists pr, i, D, [], m. split; auto. split; auto. split; auto. constructor.
Qed.
Lemma later_b_iff g start : later_b g start = true <-> comes_back_later g start.
Proof.
  unfold later_b. rewrite existsb_exists. split.
  - intros (pr & Hp & H). apply andb_true_iff in H as [H1 H2]. apply mem_str, reached_In, way_steps in H1 as [k Hk].
    apply existsb_exists in H2 as (D & HD & H2). apply mem_str, reached_In, way_steps in H2 as [l Hl]. apply named_In in HD.
    assert (exists i, nth_error (p_syms pr) (S i) = Some (SNon D)) as [i Hi] by (apply In_nth_error in HD as [i Hi]; exists i; destruct (p_syms pr); [destruct i; discriminate Hi|exact Hi]).
    exists (p_name pr), k, (p_name pr), l. split; auto. eapply way_later; eauto.
  - intros (A & k & B & l & Hk & Hl). destruct (way_leaves _ _ _ _ _ Hl) as (pr & i & D & k1 & k2 & K1 & K2 & K3 & K4).
    exists pr. split; auto. apply andb_true_iff. split.
    + apply mem_str, reached_In, way_steps. exists (k ++ k1). eapply way_app; eauto.
    + apply existsb_exists. exists D. split; [apply named_In; destruct (p_syms pr); [discriminate K2|eapply nth_error_In; exact K2]|].
      apply mem_str, reached_In, way_steps. exists (k2 ++ k1). eapply way_app; eauto.
Qed.

(** The check tells whether there is a bound: if it fails to find a name that comes back, the stack
    is bounded on every input; if it finds one, no number is enough for all sentences. *)
Theorem C97_decided :
  forall ast g st, grammar_from_ast ast = Ok g -> find ap_start ast = Some st -> start_fresh g ->
  forall hash t, make_tables hash g = Ok t ->
  (later_b g (ap_name st) = false -> forall tokens a n c, nsteps (parse_step g t tokens) n (parse_init a) c ->
     length (ps_stack c) <= 1 + longest g + (longest g - 1) * length (g_prods g)) /\
  (later_b g (ap_name st) = true -> plain g -> all_productive g -> closed g t ->
     forall m, exists tokens w ps a n c, ended tokens w /\ sentence g (ap_name st) w /\ parse_impl g t tokens = Ok ps /\
       nth_error tokens 0 = Some a /\ nsteps (parse_step g t tokens) n (parse_init a) c /\ m < length (ps_stack c)).
Proof.
  intros ast g st Hg Hs Hf hash t Ht. split.
  - intros Hb tokens a n c Hn. eapply C97_bounded; eauto. intros H. apply later_b_iff in H. congruence.
  - intros Hb Hpl Hp Hcl. apply later_b_iff in Hb. eapply C97_unbounded; eauto.
Qed.
Print Assumptions C97_decided.

(** Sums have a bound, and S -> C C; C -> "c" C | "d" has none. *)
Example C97_decided_nonvacuous :
  (exists g t st, tables_of w_expr g t /\ find ap_start w_expr = Some st /\ start_fresh g /\ later_b g (ap_name st) = false) /\
  (exists g t st, tables_of w_cc g t /\ find ap_start w_cc = Some st /\ well_formed g /\ all_productive g /\ closed g t /\ later_b g (ap_name st) = true).
Proof.
  split.
  - destruct C97_bounded_nonvacuous as (g & t & st & H1 & H2 & H3 & _ & _ & H & _). exists g, t, st. split; auto. split; auto. split; [apply H3|].
    destruct (later_b g (ap_name st)) eqn:E; auto. exfalso. apply H, later_b_iff, E.
  - destruct C97_unbounded_nonvacuous as (g & t & st & H1 & H2 & H3 & H4 & H5 & H). exists g, t, st. split; auto. split; auto. split; auto. split; auto. split; auto.
    apply later_b_iff, H.
Qed.
