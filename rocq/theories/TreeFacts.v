(** Parse trees, derivations and rightmost derivations. *)
From Verif Require Import Base Grammar GrammarSpec.

Lemma derives_trans g u v w : derives g u v -> derives g v w -> derives g u w.
Proof. induction 1; auto. intros. econstructor; eauto. Qed.
Lemma derives1_ctx g a u v c : derives1 g u v -> derives1 g (a ++ u ++ c) (a ++ v ++ c).
Proof.
  intros H. destruct H as [a0 A b c0 Hr].
  replace (a ++ (a0 ++ SNon A :: c0) ++ c) with ((a ++ a0) ++ SNon A :: (c0 ++ c)) by (rewrite <- !app_assoc; reflexivity).
  replace (a ++ (a0 ++ b ++ c0) ++ c) with ((a ++ a0) ++ b ++ (c0 ++ c)) by (rewrite <- !app_assoc; reflexivity).
  constructor. exact Hr.
Qed.
Lemma derives_ctx g a u v c : derives g u v -> derives g (a ++ u ++ c) (a ++ v ++ c).
Proof. induction 1; [constructor|]. econstructor; [apply derives1_ctx|]; eauto. Qed.
Lemma derives_app g u u' v v' : derives g u u' -> derives g v v' -> derives g (u ++ v) (u' ++ v').
Proof.
  intros H1 H2. apply derives_trans with (u' ++ v).
  - exact (derives_ctx g [] u u' v H1).
  - pose proof (derives_ctx g u' v v' [] H2) as H. rewrite !app_nil_r in H. exact H.
Qed.
Lemma derives_rule g A b : rule g A b -> derives g [SNon A] b.
Proof.
  intros H. eapply derives_step; [|constructor]. pose proof (derives1_intro g [] A b [] H) as H1.
  simpl in H1. rewrite app_nil_r in H1. exact H1.
Qed.

Section Trees.
  Variable g : grammar.

  Lemma tree_ok_node p ts : tree_ok g (Node p ts) -> exists pr, nth_error (g_prods g) p = Some pr /\
    Forall (tree_ok g) ts /\ map (root g) ts = map Some (p_syms pr).
  Proof. intros H. inversion H; subst. eauto. Qed.
  Lemma tree_ok_leaf x : tree_ok g (Leaf x) -> terminal x.
  Proof. intros H. inversion H; subst. auto. Qed.

  (** A tree spells out a derivation. *)
  Lemma forest_derives ts : forall l, Forall (fun tr => forall x, tree_ok g tr -> root g tr = Some x -> derives g [x] (yield tr)) ts ->
    Forall (tree_ok g) ts -> map (root g) ts = map Some l -> derives g l (flat_map yield ts).
  Proof.
    induction ts as [|tr ts IH]; intros [|x l] H Ho E; simpl in E; try discriminate; [constructor|].
    injection E as E1 E2. inversion H; subst. inversion Ho; subst. simpl.
    apply (derives_app g [x] (yield tr) l (flat_map yield ts)); auto.
  Qed.
  Lemma tree_derives tr : forall x, tree_ok g tr -> root g tr = Some x -> derives g [x] (yield tr).
  Proof.
    induction tr as [y|p ts IH] using tree_ind'; intros x Ho Hr; simpl in *.
    - injection Hr as <-. constructor.
    - apply tree_ok_node in Ho as (pr & Hp & Hts & Hm). rewrite Hp in Hr. injection Hr as <-.
      apply derives_trans with (p_syms pr).
      + apply derives_rule. exists pr. eauto using nth_error_In.
      + apply forest_derives; auto.
  Qed.
  Lemma forest_derives' ts l : Forall (tree_ok g) ts -> map (root g) ts = map Some l -> derives g l (flat_map yield ts).
  Proof. apply forest_derives. apply Forall_forall. intros tr _ x. apply tree_derives. Qed.

  Lemma tree_terminals tr : tree_ok g tr -> terminals (yield tr).
  Proof.
    induction tr as [y|p ts IH] using tree_ind'; intros Ho; simpl.
    - constructor; [|constructor]. apply tree_ok_leaf, Ho.
    - apply tree_ok_node in Ho as (pr & _ & Hts & _). unfold terminals.
      induction ts as [|tr ts IHl]; simpl; [constructor|]. inversion IH as [|? ? I1 I2]; subst. inversion Hts; subst.
      apply Forall_app. split; [apply I1; assumption|apply IHl; assumption].
  Qed.
  Lemma forest_terminals ts : Forall (tree_ok g) ts -> terminals (flat_map yield ts).
  Proof.
    induction 1; simpl; [constructor|]. apply Forall_app. split; [apply tree_terminals; assumption|assumption].
  Qed.

  (** A derivation to terminals is spelled out by trees. *)
  Lemma derives_forest u v : derives g u v -> terminals v ->
    exists ts, Forall (tree_ok g) ts /\ map (root g) ts = map Some u /\ flat_map yield ts = v.
  Proof.
    induction 1 as [u|u v w H1 H2 IH]; intros Ht.
    - exists (map Leaf u). split; [|split].
      + apply Forall_forall. intros tr Hin. apply in_map_iff in Hin as (x & <- & Hx). constructor.
        unfold terminals in Ht. rewrite Forall_forall in Ht. auto.
      + rewrite map_map. reflexivity.
      + induction u as [|x u IHu]; simpl; auto. f_equal. apply IHu. inversion Ht; auto.
    - destruct (IH Ht) as (ts & Ho & Hm & Hy). destruct H1 as [a A b c (pr & Hin & <- & <-)].
      rewrite !map_app in Hm. 
      assert (E : exists ta tb tc, ts = ta ++ tb ++ tc /\ map (root g) ta = map Some a /\ map (root g) tb = map Some (p_syms pr) /\ map (root g) tc = map Some c).
      { clear -Hm. revert Hm. generalize (p_syms pr) as b. revert ts. induction a as [|x a IHa]; intros ts b Hm; simpl in Hm.
        - exists []. revert ts Hm. induction b as [|y b IHb]; intros ts Hm; simpl in Hm.
          + exists [], ts. auto.
          + destruct ts as [|tr ts]; [discriminate|]. injection Hm as E1 E2. destruct (IHb ts E2) as (tb & tc & -> & _ & H2 & H3).
            exists (tr :: tb), tc. split; auto. split; auto. split; auto. simpl. congruence.
        - destruct ts as [|tr ts]; [discriminate|]. injection Hm as E1 E2. destruct (IHa ts b E2) as (ta & tb & tc & -> & H1 & H2 & H3).
          exists (tr :: ta), tb, tc. split; auto. split; auto. simpl. congruence. }
      destruct E as (ta & tb & tc & -> & Ha & Hb & Hc).
      apply In_nth_error in Hin as [p Hp]. apply Forall_app in Ho as [Ho1 Ho2]. apply Forall_app in Ho2 as [Ho2 Ho3].
      exists (ta ++ Node p tb :: tc). split; [|split].
      + apply Forall_app. split; auto. constructor; auto. econstructor; eauto.
      + rewrite !map_app. simpl. rewrite Hp, Ha, Hc. reflexivity.
      + rewrite !flat_map_app in Hy. rewrite flat_map_app. cbn [flat_map yield]. exact Hy.
  Qed.
  Lemma derives_tree x v : derives g [x] v -> terminals v ->
    exists tr, tree_ok g tr /\ root g tr = Some x /\ yield tr = v.
  Proof.
    intros H Ht. destruct (derives_forest _ _ H Ht) as ([|tr [|tr' ts]] & Ho & Hm & Hy); simpl in Hm; try discriminate.
    injection Hm as Hm. inversion Ho; subst. exists tr. simpl. rewrite app_nil_r. auto.
  Qed.

  (** The post-order of a tree is a rightmost derivation in reverse. *)
  Lemma rm_forest ts : forall l a w, 
    Forall (fun tr => forall x a w, tree_ok g tr -> root g tr = Some x -> terminals w -> forall ps u, rm_reduce g ps u (a ++ yield tr ++ w) -> rm_reduce g (ps ++ postorder tr) u (a ++ x :: w)) ts ->
    Forall (tree_ok g) ts -> map (root g) ts = map Some l -> terminals w ->
    forall ps u, rm_reduce g ps u (a ++ flat_map yield ts ++ w) -> rm_reduce g (ps ++ flat_map postorder ts) u (a ++ l ++ w).
  Proof.
    induction ts as [|tr ts IH]; intros [|x l] a w H Ho E Hw ps u Hr; simpl in E; try discriminate.
    - simpl in *. rewrite app_nil_r. exact Hr.
    - injection E as E1 E2. inversion H as [|? ? Htr Hts]; subst. inversion Ho; subst. cbn [flat_map] in *.
      rewrite <- app_assoc in Hr. rewrite app_assoc.
      specialize (Htr x a (flat_map yield ts ++ w)).
      assert (Hr1 : rm_reduce g (ps ++ postorder tr) u ((a ++ [x]) ++ flat_map yield ts ++ w)).
      { rewrite <- app_assoc. apply Htr; auto. apply Forall_app. split; auto. apply forest_terminals. auto. }
      pose proof (IH l (a ++ [x]) w Hts ltac:(assumption) E2 Hw _ _ Hr1) as Hr2.
      rewrite <- !app_assoc in Hr2. rewrite <- !app_assoc. exact Hr2.
  Qed.
  Lemma rm_tree tr : forall x a w, tree_ok g tr -> root g tr = Some x -> terminals w -> forall ps u,
    rm_reduce g ps u (a ++ yield tr ++ w) -> rm_reduce g (ps ++ postorder tr) u (a ++ x :: w).
  Proof.
    induction tr as [y|p ts IH] using tree_ind'; intros x a w Ho Hr Hw ps u H; simpl in *.
    - injection Hr as <-. rewrite app_nil_r. exact H.
    - apply tree_ok_node in Ho as (pr & Hp & Hts & Hm). rewrite Hp in Hr. injection Hr as <-.
      rewrite app_assoc. eapply rm_snoc; eauto. eapply rm_forest; eauto.
  Qed.

  (** The post-order determines the tree, given the root. *)
  Lemma flat_rev {A B} (f : A -> list B) l : rev (flat_map f l) = flat_map (fun x => rev (f x)) (rev l).
  Proof. induction l as [|a l IH]; simpl; auto. rewrite rev_app_distr, IH, flat_map_app. simpl. rewrite app_nil_r. reflexivity. Qed.

  Lemma post_inj_forest ts : Forall (fun tr => forall tr' l l', tree_ok g tr -> tree_ok g tr' -> root g tr = root g tr' ->
      rev (postorder tr) ++ l = rev (postorder tr') ++ l' -> tr = tr' /\ l = l') ts ->
    forall ts' l l', Forall (tree_ok g) ts -> Forall (tree_ok g) ts' -> map (root g) ts = map (root g) ts' ->
      flat_map (fun tr => rev (postorder tr)) ts ++ l = flat_map (fun tr => rev (postorder tr)) ts' ++ l' -> ts = ts' /\ l = l'.
  Proof.
    induction ts as [|tr ts IH]; intros H ts' l l' Ho Ho' Hm E; destruct ts' as [|tr' ts']; simpl in *; try discriminate; auto.
    injection Hm as Hm1 Hm2. inversion H as [|? ? Htr Hts]; subst. inversion Ho; subst. inversion Ho'; subst.
    rewrite <- !app_assoc in E. apply Htr in E as [-> E]; auto. apply (IH Hts) in E as [-> ->]; auto.
  Qed.
  Lemma post_inj_gen tr : forall tr' l l', tree_ok g tr -> tree_ok g tr' -> root g tr = root g tr' ->
    rev (postorder tr) ++ l = rev (postorder tr') ++ l' -> tr = tr' /\ l = l'.
  Proof.
    induction tr as [x|p ts IH] using tree_ind'; intros [x'|p' ts'] l l' Ho Ho' Hr E; simpl in *.
    - injection Hr as ->. auto.
    - exfalso. apply tree_ok_leaf in Ho. destruct (nth_error (g_prods g) p'); [|discriminate]. injection Hr as ->. eapply Ho; reflexivity.
    - exfalso. apply tree_ok_leaf in Ho'. destruct (nth_error (g_prods g) p); [|discriminate]. injection Hr as <-. eapply Ho'; reflexivity.
    - rewrite !rev_app_distr in E. simpl in E. injection E as <- E.
      apply tree_ok_node in Ho as (pr & Hp & Hts & Hm). apply tree_ok_node in Ho' as (pr' & Hp' & Hts' & Hm').
      rewrite Hp in Hp'. injection Hp' as <-. rewrite !flat_rev in E.
      assert (IH' : Forall (fun tr => forall tr' l l', tree_ok g tr -> tree_ok g tr' -> root g tr = root g tr' ->
        rev (postorder tr) ++ l = rev (postorder tr') ++ l' -> tr = tr' /\ l = l') (rev ts)) by (apply Forall_rev, IH).
      apply (post_inj_forest (rev ts) IH') in E as [E ->]; auto.
      + split; auto. f_equal. rewrite <- (rev_involutive ts), E, rev_involutive. reflexivity.
      + apply Forall_rev, Hts.
      + apply Forall_rev, Hts'.
      + rewrite !map_rev. congruence.
  Qed.
  Lemma post_inj tr tr' : tree_ok g tr -> tree_ok g tr' -> root g tr = root g tr' -> postorder tr = postorder tr' -> tr = tr'.
  Proof. intros H H' Hr E. eapply (post_inj_gen tr tr' [] []); auto. rewrite E. reflexivity. Qed.
End Trees.

(** EOF labels no leaf of a tree with a nonterminal root. *)
Lemma no_eof g tr : eof_free g -> tree_ok g tr -> root g tr <> Some SEof -> ~ In SEof (yield tr).
Proof.
  intros Heof. induction tr as [x|p ts IH] using tree_ind'; intros Ho Hr.
  - simpl in *. intros [->|[]]. congruence.
  - destruct (tree_ok_node _ _ _ Ho) as (pr & Hp & Hts & Hm). cbn [yield]. intros Hin.
    apply in_flat_map in Hin as (tr & Htr & Hin). rewrite Forall_forall in *. revert Hin. apply IH; auto.
    intros E. apply (in_map (root g)) in Htr. rewrite Hm, E in Htr. apply in_map_iff in Htr as (y & Ey & Hy). injection Ey as ->.
    exact (Heof pr (nth_error_In _ _ Hp) Hy).
Qed.
