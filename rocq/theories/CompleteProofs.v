(** If the parser finds every parse tree, no transition is missing from its tables. *)
From Verif Require Import Base Grammar GrammarSpec GrammarProofs First FirstProofs Item ItemSpec ItemProofs ItemPlain Table TableSpec MergeProofs TableProofs TableFacts
  Parse ParseSpec ParseCheck TreeFacts Auto ParseProofs ParseTerm ParseCycle ParseComplete ParseExact Report ReportSpec ReportProofs ReportExact ViableSpec ViableProofs ViableTables.

(** Decides [closed]: every item with a lookahead has its entry. *)
Definition complete_b (g : grammar) (t : tables) : bool :=
  forallb (fun e => forallb (fun it => match snd it with [] => true | _ => closed_item g t (fst e) it end) (snd e)) (enumerate (t_states t)).
Lemma used_tok g start x : wf_grammar g start -> eof_free g -> used g x -> exists k, tok g k x.
Proof. intros W He H. destruct (used_token g start W x H) as [k Hk]. exists k. eapply nth_tok; eauto. Qed.
Lemma complete_b_iff g start t : wf_grammar g start -> eof_free g -> (complete_b g t = true <-> closed g t).
Proof.
  intros W He. unfold complete_b. rewrite forallb_forall. split; intros H.
  - intros i p d k x (s & Hs & las & Hin & Hk) Hx.
    specialize (H (i, s) (proj2 (enumerate_In _ _ _) Hs)). cbn [fst snd] in H. rewrite forallb_forall in H. specialize (H _ Hin).
    destruct las as [|k0 las]; [contradiction|]. cbn [snd] in H.
    unfold closed_item in H. cbn [fst] in H. rewrite (proj2 (dot_token_sym_at g p d x) Hx) in H. split.
    + intros Ht kx Hkx. apply tok_idx in Hkx. destruct x; try (rewrite Hkx in H);
        try (destruct (tbl_get (t_action t) i kx) as [[j|?|]|]; try discriminate; eauto).
      all: exfalso; eapply Ht; reflexivity.
    + intros n ->. destruct (tbl_get (t_goto t) i n) as [j|]; [eauto|discriminate].
  - intros [i s] Hin. apply enumerate_In in Hin. cbn [fst snd]. apply forallb_forall. intros [[p d] [|k las]] Hit; [reflexivity|].
    cbn [snd]. unfold closed_item. cbn [fst].
    destruct (dot_token g (p, d)) as [[x|]| |] eqn:Ed; auto. apply dot_token_sym_at in Ed.
    assert (Hs : st t i p d k) by (exists s; split; auto; exists (k :: las); split; [exact Hit|left; reflexivity]).
    destruct (H i p d k x Hs Ed) as [H1 H2].
    assert (Hu : used g x) by (destruct Ed as (pr & Hp & Hx); exists pr; split; eapply nth_error_In; eauto).
    destruct (used_tok g start x W He Hu) as [kx Hkx].
    assert (T : terminal x -> match get_token_idx g x with Some k => match tbl_get (t_action t) i k with Some (Shift _) => true | _ => false end | None => false end = true).
    { intros Hx. rewrite (proj2 (tok_idx g x kx) Hkx). destruct (H1 Hx kx Hkx) as [j ->]. reflexivity. }
    destruct x; try (apply T; intros n' E; discriminate E).
    destruct (H2 _ eq_refl) as [j ->]. reflexivity.
Qed.

Lemma forallb_false {B} (f : B -> bool) l : forallb f l = false -> exists x, In x l /\ f x = false.
Proof.
  induction l as [|y l IH]; [discriminate|]. cbn [forallb]. destruct (f y) eqn:E; cbn [andb]; intros H.
  - destruct (IH H) as (x & Hx & Ex). exists x. split; [right; exact Hx|exact Ex].
  - exists y. split; [left; reflexivity|exact E].
Qed.
Lemma complete_b_false g t : complete_b g t = false -> exists i p d k x, st t i p d k /\ sym_at g p d x /\
  ((terminal x /\ forall kx, tok g kx x -> forall j, tbl_get (t_action t) i kx <> Some (Shift j)) \/
   (exists A, x = SNon A /\ tbl_get (t_goto t) i A = None)).
Proof.
  intros H. apply forallb_false in H as ([i s] & Hin & H). apply enumerate_In in Hin. cbn [fst snd] in H.
  apply forallb_false in H as ([[p d] [|k las]] & Hit & H); [discriminate|]. cbn [snd] in H. unfold closed_item in H. cbn [fst] in H.
  destruct (dot_token g (p, d)) as [[x|]| |] eqn:Ed; try discriminate. apply dot_token_sym_at in Ed.
  exists i, p, d, k, x. split; [exists s; split; auto; exists (k :: las); split; [exact Hit|left; reflexivity]|]. split; auto.
  assert (T : match get_token_idx g x with Some k => match tbl_get (t_action t) i k with Some (Shift _) => true | _ => false end | None => false end = false ->
    forall kx, tok g kx x -> forall j, tbl_get (t_action t) i kx <> Some (Shift j)).
  { intros E kx Hk j Ej. rewrite (proj2 (tok_idx g x kx) Hk), Ej in E. discriminate. }
  destruct x as [n|n|n| |]; try (left; split; [intros n' E; discriminate E|exact (T H)]).
  right. exists n. split; auto. destruct (tbl_get (t_goto t) i n); [discriminate|reflexivity].
Qed.

Section Complete.
  Variables (g : grammar) (start : str).
  Hypothesis W : wf_grammar g start.
  Hypothesis Hst : g_start g = aug_name start.
  Hypothesis He : eps_free g.
  Hypothesis Heof : eof_free g.
  Hypothesis Hprod : all_productive g.
  Variables (hash : list item -> N) (t : tables).
  Hypothesis Ht : make_tables hash g = Ok t.
  Hypothesis Hf : start_fresh g.

  (** After [a], [A] is expected. *)
  Inductive due : list sym -> str -> Prop :=
  | due_start : due [] start
  | due_rule a q pq d B : due a (p_name pq) -> nth_error (g_prods g) q = Some pq -> nth_error (p_syms pq) d = Some (SNon B) ->
      due (a ++ firstn d (p_syms pq)) B.

  Lemma form_due v : rderives g [SNon start] v -> forall a A w, v = a ++ SNon A :: w -> due a A.
  Proof.
    induction 1 as [|a' A' b' w' _ IH (pr & Hin & Hn & Hb) Hw]; intros a A w E.
    - destruct a as [|y [|]]; try discriminate. injection E as <- <-. constructor.
    - symmetry in E. apply app_eq_mid in E as [(c & -> & _)|(c & E & ->)].
      + eapply IH. rewrite <- app_assoc. reflexivity.
      + symmetry in E. apply app_eq_mid in E as [(e & Eb & _)|(e & -> & _)].
        * apply In_nth_error in Hin as [q Hq]. subst b'.
          assert (E1 : c = firstn (length c) (p_syms pr)) by (rewrite Eb, firstn_app, firstn_all, Nat.sub_diag; cbn [firstn]; rewrite app_nil_r; reflexivity).
          rewrite E1. eapply due_rule; [rewrite Hn; eapply IH; reflexivity|exact Hq|].
          rewrite Eb. rewrite nth_error_app2, Nat.sub_diag; auto.
        * apply Forall_app in Hw as [_ Hw]. inversion Hw as [|? ? Hx _]; subst. exfalso. eapply Hx. reflexivity.
  Qed.

  Lemma forest_for l : Forall (used g) l -> exists ts, Forall (tree_ok g) ts /\ map (root g) ts = map Some l.
  Proof using Hprod.
    intros H. destruct (productive_all g Hprod l H) as (m & Hm & _ & Hd). destruct (derives_forest g _ _ Hd Hm) as (ts & Ho & Hr & _). eauto.
  Qed.
  Lemma tree_for x : used g x -> exists tr, tree_ok g tr /\ root g tr = Some x.
  Proof using Hprod.
    intros H. destruct (forest_for [x]) as ([|tr [|]] & Ho & Hr); [constructor; auto|discriminate| |discriminate].
    injection Hr as Hr. inversion Ho; subst. eauto.
  Qed.
  (** A node with the tree [tr] in the place of the [d]th symbol. *)
  Lemma node_with q pq d x tr : nth_error (g_prods g) q = Some pq -> nth_error (p_syms pq) d = Some x -> tree_ok g tr -> root g tr = Some x ->
    exists us vs, tree_ok g (Node q (us ++ tr :: vs)) /\ map (root g) us = map Some (firstn d (p_syms pq)).
  Proof using Hprod.
    intros Hq Hx Ho Hr.
    assert (U : Forall (used g) (p_syms pq)) by (apply Forall_forall; intros y Hy; exists pq; split; [eapply nth_error_In, Hq|exact Hy]).
    assert (E : p_syms pq = firstn d (p_syms pq) ++ x :: skipn (S d) (p_syms pq)).
    { clear -Hx. revert Hx. generalize (p_syms pq). induction d as [|d IH]; intros [|y l] Hx; try discriminate.
      - injection Hx as ->. reflexivity.
      - cbn [firstn app skipn]. f_equal. apply IH, Hx. }
    rewrite E in U. apply Forall_app in U as [U1 U2]. inversion U2 as [|? ? _ U3]; subst.
    destruct (forest_for _ U1) as (us & Hu & Eu). destruct (forest_for _ U3) as (vs & Hv & Ev).
    exists us, vs. split; auto. econstructor; [exact Hq| |].
    - apply Forall_app. split; auto.
    - rewrite E, !map_app. cbn [map]. rewrite Eu, Ev, Hr. reflexivity.
  Qed.

  Lemma moves_app us vs : forall i l, moves_all g t i (us ++ vs) l -> exists m, moves_all g t i us m /\ moves_all g t m vs l.
  Proof.
    induction us as [|tr us IH]; intros i l H; cbn [app] in H.
    - exists i. split; [constructor|exact H].
    - inversion H; subst. destruct (IH _ _ ltac:(eassumption)) as (m & H1 & H2). exists m. split; auto. econstructor; eauto.
  Qed.
  Lemma moves_walk i u i' tr x j : walks g t i u i' -> tree_ok g tr -> root g tr = Some x -> moves g t i' tr j -> walks g t i (u ++ [x]) j.
  Proof.
    intros Hw Ho Hr M. destruct M as [i' x' k j Hk Hj|i' p pr ts l j Hp _ Hj].
    - injection Hr as ->. inversion Ho; subst. eapply wk_shift; eauto.
    - cbn [root] in Hr. rewrite Hp in Hr. injection Hr as <-. eapply wk_goto; eauto.
  Qed.
  Lemma moves_all_walk ts : forall i u i' l j, walks g t i u i' -> Forall (tree_ok g) ts -> map (root g) ts = map Some l ->
    moves_all g t i' ts j -> walks g t i (u ++ l) j.
  Proof.
    induction ts as [|tr ts IH]; intros i u i' [|x l] j Hw Ho Hm M; try discriminate.
    - inversion M; subst. rewrite app_nil_r. exact Hw.
    - injection Hm as Hx Hm. inversion M; subst. inversion Ho; subst.
      replace (u ++ x :: l) with ((u ++ [x]) ++ l) by (rewrite <- app_assoc; reflexivity).
      eapply IH; eauto. eapply moves_walk; eauto.
  Qed.

  (** Where a nonterminal is expected, every tree for it is part of a tree for the start symbol. *)
  Lemma due_tree a A : due a A -> forall tr, tree_ok g tr -> root g tr = Some (SNon A) ->
    exists Tr, tree_ok g Tr /\ root g Tr = Some (SNon start) /\
      forall j, moves g t 0 Tr j -> exists i j', walks g t 0 a i /\ moves g t i tr j'.
  Proof using Hprod.
    induction 1 as [|a q pq d B _ IH Hq Hd]; intros tr Ho Hr.
    - exists tr. split; auto. split; auto. intros j M. exists 0, j. split; [constructor|exact M].
    - destruct (node_with q pq d (SNon B) tr Hq Hd Ho Hr) as (us & vs & Hn & Hu).
      destruct (IH _ Hn ltac:(cbn [root]; rewrite Hq; reflexivity)) as (Tr & HT & HR & HM). exists Tr. split; auto. split; auto.
      intros j M. destruct (HM j M) as (i & j' & Hw & Mn).
      inversion Mn as [|? ? pr' ? l ? Hp' Ma _]; subst. apply moves_app in Ma as (m & M1 & M2). inversion M2; subst.
      destruct (tree_ok_node g _ _ Hn) as (pr2 & _ & Hall & _). apply Forall_app in Hall as [Hall _].
      exists m. eexists. split; [eapply moves_all_walk; eauto|eauto].
  Qed.

  (** The entry for the symbol at the root of the tree is there. *)
  Definition entry (i : nat) (x : sym) : Prop :=
    (terminal x -> forall kx, tok g kx x -> exists j, tbl_get (t_action t) i kx = Some (Shift j)) /\
    (forall A, x = SNon A -> exists j, tbl_get (t_goto t) i A = Some j).
  Lemma moves_entry i tr x j : root g tr = Some x -> tree_ok g tr -> moves g t i tr j -> entry i x.
  Proof.
    intros Hr Ho M. destruct M as [i x' k j Hk Hj|i p pr ts l j Hp _ Hj].
    - injection Hr as ->. split.
      + intros _ kx Hkx. apply tok_idx in Hk, Hkx. rewrite Hk in Hkx. injection Hkx as <-. eauto.
      + intros A ->. inversion Ho as [? Hx|]; subst. exfalso. eapply Hx. reflexivity.
    - cbn [root] in Hr. rewrite Hp in Hr. injection Hr as <-. split.
      + intros Hx. exfalso. eapply Hx. reflexivity.
      + intros A [= <-]. eauto.
  Qed.

  (** For every item and the symbol after its dot there is a tree that needs the entry. *)
  Lemma item_tree i p d k x : st t i p d k -> sym_at g p d x ->
    exists tr, tree_ok g tr /\ root g tr = Some (SNon start) /\ forall j, moves g t 0 tr j -> entry i x.
  Proof using W Hst He Heof Hprod Ht Hf.
    intros Hs Hx. apply (st_valid g start W He Heof Hprod hash t Ht) in Hs as (u & Hu & Hv).
    enough (exists tr, tree_ok g tr /\ root g tr = Some (SNon start) /\ forall j, moves g t 0 tr j -> exists i', walks g t 0 u i' /\ entry i' x) as (tr & Ho & Hr & HM).
    { exists tr. split; auto. split; auto. intros j M. destruct (HM j M) as (i' & Hw & Hen).
      assert (i' = i) as <-; [|exact Hen]. eapply (state_unique g start W hash t Ht u); eauto; [exists p, d, k; exact Hv|].
      eapply walks_state; eauto. }
    destruct Hv as (pr & a & w & Hp & _ & -> & Hor & _). destruct Hx as (pr' & Hp' & Hx). rewrite Hp in Hp'. injection Hp' as <-.
    assert (U : used g x) by (exists pr; split; [eapply nth_error_In, Hp|eapply nth_error_In, Hx]).
    destruct (tree_for x U) as (tr & Ho & Hr). destruct Hor as [(-> & -> & ->)|Hrd].
    - rewrite (wg_prod0 _ _ W) in Hp. injection Hp as <-. cbn [p_syms] in *. destruct d as [|[|d]]; try discriminate. injection Hx as <-.
      exists tr. split; auto. split; auto. intros j M. exists 0. split; [constructor|]. eapply moves_entry; eauto.
    - destruct (node_with p pr d x tr Hp Hx Ho Hr) as (us & vs & Hn & Hu').
      destruct (due_tree a (p_name pr) (form_due _ Hrd _ _ _ eq_refl) _ Hn ltac:(cbn [root]; rewrite Hp; reflexivity)) as (Tr & HT & HR & HM).
      exists Tr. split; auto. split; auto. intros j M. destruct (HM j M) as (i' & j' & Hw & Mn).
      inversion Mn as [|? ? pr' ? l ? Hp' Ma _]; subst. apply moves_app in Ma as (m & M1 & M2). inversion M2; subst.
      destruct (tree_ok_node g _ _ Hn) as (pr2 & _ & Hl & _). apply Forall_app in Hl as [Hl _].
      exists m. split; [eapply moves_all_walk; eauto|eapply moves_entry; eauto].
  Qed.

  (** Every tree for the start symbol is the tree of a token sequence. *)
  Lemma tree_tokens tr : tree_ok g tr -> root g tr = Some (SNon start) -> exists w, ended (w ++ [0]) w /\ parse_tree g start w tr.
  Proof using W Heof.
    intros Ho Hr.
    assert (U : Forall (used g) (yield tr)).
    { eapply derives_used; [eapply tree_derives; eauto|]. constructor; [|constructor].
      eexists. split; [eapply nth_error_In, (wg_prod0 _ _ W)|left; reflexivity]. }
    destruct (used_symbols g start W _ U) as [w Hw]. exists w. split; [split; [reflexivity|]|split; auto].
    eapply sentence_no_eof; eauto. exists (yield tr). split; auto. split; [eapply tree_terminals; eauto|eapply tree_derives; eauto].
  Qed.
  (** A tree is found exactly if it can be moved along. *)
  Lemma found_moves w tr : ended (w ++ [0]) w -> parse_tree g start w tr -> parse_impl g t (w ++ [0]) = Ok (postorder tr) -> exists j, moves g t 0 tr j.
  Proof using W Hst He Heof Ht Hf.
    intros Hend Hp E. apply (accepts_iff g start W Hst hash t Ht He Heof Hf (w ++ [0]) w (postorder tr) Hend) in E as (tr' & j & Hp' & M & E).
    assert (tr = tr') as <-; [|eauto]. destruct Hp as (Ho & Hr & _), Hp' as (Ho' & Hr' & _). eapply post_inj; eauto. congruence.
  Qed.
End Complete.
