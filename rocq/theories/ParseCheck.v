(** Decision procedures for the conditions on tables and trees, used only to check examples. *)
From Verif Require Import Base Grammar GrammarSpec GrammarProofs First Item ItemSpec ItemProofs Table TableProofs Parse ParseSpec TreeFacts ParseCycle.

Definition start_fresh_b (g : grammar) : bool :=
  forallb (fun p => negb (existsb (eqb (SNon (g_start g))) (p_syms p))) (g_prods g).
Lemma start_fresh_b_ok g : start_fresh_b g = true -> start_fresh g.
Proof.
  unfold start_fresh_b, start_fresh. rewrite forallb_forall. intros H p Hp Hx. specialize (H p Hp).
  apply negb_true_iff in H. rewrite <- not_true_iff_false in H. apply H. apply existsb_exists.
  exists (SNon (g_start g)). split; [exact Hx|apply eqb_refl].
Qed.

Definition closed_item (g : grammar) (t : tables) (i : nat) (e : item * list nat) : bool :=
  match dot_token g (fst e) with
  | Ok (Some (SNon n)) => match tbl_get (t_goto t) i n with Some _ => true | None => false end
  | Ok (Some x) => match get_token_idx g x with
                   | Some k => match tbl_get (t_action t) i k with Some (Shift _) => true | _ => false end
                   | None => false
                   end
  | _ => true
  end.
Definition closed_b (g : grammar) (t : tables) : bool :=
  forallb (fun e => forallb (closed_item g t (fst e)) (snd e)) (enumerate (t_states t)).
Lemma closed_b_ok g t : closed_b g t = true -> closed g t.
Proof.
  unfold closed_b. rewrite forallb_forall. intros H i p d k x (s & Hs & las & Hin & _) Hx.
  specialize (H (i, s) (proj2 (enumerate_In _ _ _) Hs)). rewrite forallb_forall in H. specialize (H _ Hin).
  unfold closed_item in H. cbn [fst] in H. rewrite (proj2 (dot_token_sym_at g p d x) Hx) in H. split.
  - intros Ht kx Hk. apply tok_idx in Hk. destruct x; try (rewrite Hk in H);
      try (destruct (tbl_get (t_action t) i kx) as [[j|?|]|]; try discriminate; eauto).
    all: exfalso; eapply Ht; reflexivity.
  - intros n ->. destruct (tbl_get (t_goto t) i n) as [j|]; [eauto|discriminate].
Qed.

Fixpoint all_some (l : list (option sym)) (m : list sym) : bool :=
  match l, m with
  | [], [] => true
  | Some x :: l, y :: m => eqb x y && all_some l m
  | _, _ => false
  end.
Lemma all_some_ok l m : all_some l m = true -> l = map Some m.
Proof.
  revert m. induction l as [|[x|] l IH]; intros [|y m] H; try discriminate; [reflexivity|].
  simpl in H. apply andb_true_iff in H as [H1 H2]. apply eqb_eq in H1. simpl. f_equal; [congruence|auto].
Qed.
Fixpoint tree_ok_b (g : grammar) (tr : tree) : bool :=
  match tr with
  | Leaf x => is_term x
  | Node p ts => match nth_error (g_prods g) p with
                 | Some pr => forallb (tree_ok_b g) ts && all_some (map (root g) ts) (p_syms pr)
                 | None => false
                 end
  end.
Lemma tree_ok_b_ok g tr : tree_ok_b g tr = true -> tree_ok g tr.
Proof.
  induction tr as [x|p ts IH] using tree_ind'; simpl; intros H.
  - constructor. apply is_term_terminal, H.
  - destruct (nth_error (g_prods g) p) as [pr|] eqn:Hp; [|discriminate]. apply andb_true_iff in H as [H1 H2].
    econstructor; [exact Hp| |apply all_some_ok, H2].
    rewrite forallb_forall in H1. rewrite Forall_forall in *. auto.
Qed.

Definition parse_tree_b (g : grammar) (start : str) (w : list nat) (tr : tree) : bool :=
  tree_ok_b g tr && (match root g tr with Some (SNon n) => eqb n start | _ => false end) &&
  all_some (map (nth_error (g_tokens g)) w) (yield tr).
Lemma parse_tree_b_ok g start w tr : parse_tree_b g start w tr = true -> parse_tree g start w tr.
Proof.
  unfold parse_tree_b. intros H. apply andb_true_iff in H as [H H3]. apply andb_true_iff in H as [H1 H2].
  split; [apply tree_ok_b_ok, H1|]. split.
  - destruct (root g tr) as [[| |n| |]|]; try discriminate. apply eqb_eq in H2. subst. reflexivity.
  - apply all_some_ok, H3.
Qed.

(** Acyclicity from a rank that unit productions decrease. *)
Section Rank.
  Variables (g : grammar) (rank : str -> nat).
  Hypothesis He : eps_free g.
  Hypothesis Hr : forall p B, In p (g_prods g) -> p_syms p = [SNon B] -> rank B < rank (p_name p).
  Lemma derives1_length u v : derives1 g u v -> length u <= length v.
  Proof using He.
    intros [a A b c (pr & Hp & _ & Hs)]. rewrite !app_length. cbn [length]. destruct (He _ Hp) as [Hn _].
    rewrite Hs in Hn. destruct b; [congruence|simpl; lia].
  Qed.
  Lemma derives_length u v : derives g u v -> length u <= length v.
  Proof using He. induction 1; auto. apply derives1_length in H. lia. Qed.
  Lemma derives1_unit A v B : derives1 g [SNon A] v -> derives g v [SNon B] -> exists C, v = [SNon C] /\ rank C < rank A.
  Proof using He Hr.
    intros H1 H2. pose proof (derives_length _ _ H2) as Hl. remember [SNon A] as u eqn:Eu. destruct H1 as [a A' b c (pr & Hp & Hn & Es)].
    destruct a as [|? [|? ?]]; try discriminate. injection Eu as -> ->. cbn [app] in *. rewrite app_nil_r in *.
    destruct b as [|x [|? ?]]; cbn [length] in Hl; try lia; [destruct (He _ Hp); congruence|].
    assert (Hx : exists C, x = SNon C).
    { apply derives_inv in H2 as [E|(y & Hy & _)]; [injection E as ->; eauto|].
      remember [x] as u eqn:Eu. destruct Hy as [a C b' c _]. destruct a as [|? [|? ?]]; try discriminate. injection Eu as <- _. eauto. }
    destruct Hx as [C ->]. exists C. split; auto. rewrite <- Hn. apply Hr; auto.
  Qed.
  Lemma derives_rank A u B : u = [SNon A] -> derives g u [SNon B] -> rank B <= rank A.
  Proof using He Hr.
    intros Eu H. remember [SNon B] as w eqn:Ew. revert A Eu. induction H as [u|u v w H1 H IH]; intros A ->.
    - injection Ew as ->. lia.
    - subst w. destruct (derives1_unit A v B H1 H) as (C & -> & Hlt). specialize (IH eq_refl C eq_refl). lia.
  Qed.
  Lemma rank_acyclic A : ~ exists v, derives1 g [SNon A] v /\ derives g v [SNon A].
  Proof using He Hr.
    intros (v & H1 & H2). destruct (derives1_unit A v A H1 H2) as (C & -> & Hlt).
    apply (derives_rank C _ A eq_refl) in H2. lia.
  Qed.
End Rank.
