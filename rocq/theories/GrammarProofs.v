(** The grammar built from an AST is well formed. *)
From Verif Require Import Base Grammar GrammarSpec.

(** What the rest of the development needs of a grammar. *)
Record wf_grammar (g : grammar) (start : str) : Prop := {
  wg_sorted : msorted (g_names g);
  wg_names : forall n idxs, map_get n (g_names g) = Some idxs ->
    idxs <> [] /\ ssorted idxs /\
    forall i, In i idxs <-> exists p, nth_error (g_prods g) i = Some p /\ p_name p = n;
  wg_names_none : forall n, map_get n (g_names g) = None -> forall p, In p (g_prods g) -> p_name p <> n;
  wg_prod0 : nth_error (g_prods g) 0 = Some (Production (aug_name start) [SNon start] None None);
  wg_tokens : exists l, g_tokens g = SEof :: l /\ ssorted l /\
    forall x, In x l <-> exists p, In p (g_prods g) /\ In x (p_syms p) }.

Definition names_inv (names : list (str * list nat)) (prods : list production) : Prop :=
  msorted names /\
  (forall n idxs, map_get n names = Some idxs ->
    idxs <> [] /\ ssorted idxs /\
    forall i, In i idxs <-> exists p, nth_error prods i = Some p /\ p_name p = n) /\
  (forall n, map_get n names = None -> forall p, In p prods -> p_name p <> n).

Lemma ssorted_snoc (l : list nat) x : ssorted l -> (forall y, In y l -> y < x) -> ssorted (l ++ [x]).
Proof.
  induction l as [|a l IH]; simpl; intros Hs Hlt; [split; [intros y []|exact I]|].
  destruct Hs as [Ha Hs]. split.
  - intros y Hy. apply in_app_or in Hy as [Hy|[<-|[]]]; [auto|].
    apply Nat.compare_lt_iff. apply Hlt; auto.
  - apply IH; auto.
Qed.

Lemma names_inv_add names prods n p : names_inv names prods -> p_name p = n ->
  names_inv (map_alter n (fun o => match o with None => [length prods] | Some l => l ++ [length prods] end) names)
            (prods ++ [p]).
Proof.
  intros (Hs & H1 & H2) Hn. split; [apply map_alter_sorted, Hs|]. split.
  - intros n' idxs E. destruct (ord_dec n' n) as [->|Hne].
    + rewrite map_get_alter_same in E by exact Hs. injection E as <-.
      destruct (map_get n names) as [l|] eqn:El.
      * destruct (H1 _ _ El) as (Hne & Hso & Hin). split; [destruct l; discriminate|]. split.
        { apply ssorted_snoc; auto. intros y Hy. apply Hin in Hy as (q & Hq & _).
          apply nth_error_lt in Hq. exact Hq. }
        intros i. rewrite in_app_iff. simpl. split.
        -- intros [Hi|[<-|[]]].
           ++ apply Hin in Hi as (q & Hq & Hqn). exists q. split; auto.
              rewrite nth_error_app1; auto. apply nth_error_lt in Hq; exact Hq.
           ++ exists p. rewrite nth_error_snoc. auto.
        -- intros (q & Hq & Hqn). destruct (Nat.lt_ge_cases i (length prods)).
           ++ left. apply Hin. exists q. rewrite nth_error_app1 in Hq; auto.
           ++ right; left. apply nth_error_lt in Hq. rewrite app_length in Hq. simpl in Hq. lia.
      * split; [discriminate|]. split; [split; [intros y []|exact I]|].
        intros i. simpl. split.
        -- intros [<-|[]]. exists p. rewrite nth_error_snoc. auto.
        -- intros (q & Hq & Hqn). left. destruct (Nat.lt_ge_cases i (length prods)).
           ++ exfalso. rewrite nth_error_app1 in Hq by assumption.
              eapply H2; eauto using nth_error_In.
           ++ apply nth_error_lt in Hq. rewrite app_length in Hq. simpl in Hq. lia.
    + rewrite map_get_alter_other in E by exact Hne.
      destruct (H1 _ _ E) as (Hnn & Hso & Hin). split; auto. split; auto.
      intros i. rewrite Hin. split.
      * intros (q & Hq & Hqn). exists q. split; auto.
        rewrite nth_error_app1; auto. apply nth_error_lt in Hq; exact Hq.
      * intros (q & Hq & Hqn). exists q. split; auto.
        destruct (Nat.lt_ge_cases i (length prods)); [rewrite nth_error_app1 in Hq; auto|].
        exfalso. rewrite nth_error_app2 in Hq by assumption.
        destruct (i - length prods) as [|k]; simpl in Hq; [|destruct k; discriminate].
        injection Hq as ->. congruence.
  - intros n' E q Hq. destruct (ord_dec n' n) as [->|Hne].
    + rewrite map_get_alter_same in E by exact Hs. discriminate.
    + rewrite map_get_alter_other in E by exact Hne.
      apply in_app_or in Hq as [Hq|[<-|[]]]; [eauto|congruence].
Qed.

Lemma add_prod_inv p names prods : names_inv names prods ->
  names_inv (fst (add_prod (names, prods) p)) (snd (add_prod (names, prods) p)) /\
  snd (add_prod (names, prods) p) = prods ++ map (from_ast p) (ap_bodies p).
Proof.
  unfold add_prod. revert names prods.
  induction (ap_bodies p) as [|b bs IH]; intros names prods H; cbn [fold_left map].
  - rewrite app_nil_r. auto.
  - pose proof (names_inv_add _ _ _ (from_ast p b) H eq_refl) as H'.
    unfold add_body at 2 4 6. change (p_name (from_ast p b)) with (ap_name p) in H'.
    specialize (IH _ _ H') as [IH1 IH2]. split; [exact IH1|].
    rewrite IH2, <- app_assoc. reflexivity.
Qed.

Lemma add_prods_inv ast : forall names prods, names_inv names prods ->
  names_inv (fst (fold_left add_prod ast (names, prods))) (snd (fold_left add_prod ast (names, prods))) /\
  snd (fold_left add_prod ast (names, prods))
  = prods ++ flat_map (fun p => map (from_ast p) (ap_bodies p)) ast.
Proof.
  induction ast as [|p ast IH]; intros names prods H; cbn [fold_left flat_map].
  - rewrite app_nil_r. auto.
  - destruct (add_prod_inv p names prods H) as [H1 H2].
    destruct (add_prod (names, prods) p) as [n' p']. simpl in H1, H2.
    destruct (IH _ _ H1) as [H3 H4]. split; [exact H3|]. rewrite H4, H2, <- app_assoc. reflexivity.
Qed.

Lemma make_tokens_spec prods : exists l, make_tokens prods = SEof :: l /\ ssorted l /\
  forall x, In x l <-> exists p, In p prods /\ In x (p_syms p).
Proof.
  unfold make_tokens. eexists. split; [reflexivity|].
  assert (G : forall s, ssorted s ->
    ssorted (fold_left (fun s p => set_extend (p_syms p) s) prods s) /\
    forall x, In x (fold_left (fun s p => set_extend (p_syms p) s) prods s) <->
      In x s \/ exists p, In p prods /\ In x (p_syms p)).
  { induction prods as [|p ps IH]; intros s Hs; simpl.
    - split; auto. intros x. firstorder.
    - destruct (IH _ (set_extend_sorted (p_syms p) s Hs)) as [H1 H2]. split; auto.
      intros x. rewrite H2, set_extend_In. split.
      + intros [[H|H]|(q & Hq & Hx)]; eauto 6.
      + intros [H|(q & [<-|Hq] & Hx)]; eauto 6. }
  destruct (G [] I) as [H1 H2]. split; [exact H1|]. intros x. rewrite H2. simpl. tauto.
Qed.

Lemma grammar_from_ast_ok ast g : grammar_from_ast ast = Ok g ->
  exists st, find ap_start ast = Some st /\ wf_grammar g (ap_name st) /\
    g_start g = aug_name (ap_name st) /\
    g_prods g = Production (aug_name (ap_name st)) [SNon (ap_name st)] None None
                :: flat_map (fun p => map (from_ast p) (ap_bodies p)) ast.
Proof.
  unfold grammar_from_ast. destruct (find ap_start ast) as [st|] eqn:Ef; [|discriminate].
  set (aug := aug_name (ap_name st)).
  set (p0 := Production aug [SNon (ap_name st)] None None).
  assert (H0 : names_inv (map_insert aug [0] []) [p0]).
  { pose proof (names_inv_add [] [] aug p0) as H. simpl in H. apply H; [|reflexivity].
    split; [exact I|]. split; [intros n idxs; discriminate|intros n _ p []]. }
  destruct (add_prods_inv ast _ _ H0) as [(Hs & H1 & H2) H3].
  destruct (fold_left add_prod ast (map_insert aug [0] [], [p0])) as [names prods].
  simpl in *. intros E. injection E as <-. exists st. simpl. split; [reflexivity|].
  split; [|split; [reflexivity|exact H3]].
  constructor; simpl; auto.
  - rewrite H3. reflexivity.
  - apply make_tokens_spec.
Qed.

Lemma grammar_from_ast_total ast : (exists p, In p ast /\ ap_start p = true) ->
  exists g, grammar_from_ast ast = Ok g.
Proof.
  intros (p & Hp & Hs). unfold grammar_from_ast. destruct (find ap_start ast) as [st|] eqn:Ef.
  - destruct (fold_left _ _ _). eauto.
  - exfalso. eapply find_none in Ef; eauto. congruence.
Qed.

Section Lookups.
  Context (g : grammar) (start : str) (W : wf_grammar g start).

  Lemma prod_iter_all prods idxs : (forall i, In i idxs -> i < length prods) ->
    Forall2 (fun i ip => fst ip = i /\ nth_error prods i = Some (snd ip)) idxs (prod_iter prods idxs).
  Proof.
    induction idxs as [|i l IH]; simpl; intros H; [constructor|].
    destruct (nth_error prods i) as [p|] eqn:E.
    - constructor; auto.
    - exfalso. apply nth_error_None in E. specialize (H i (or_introl eq_refl)). lia.
  Qed.

  Lemma production_iter_ok n ps : production_iter g n = Ok ps ->
    ps <> [] /\ ssorted (map fst ps) /\
    forall i p, In (i, p) ps <-> nth_error (g_prods g) i = Some p /\ p_name p = n.
  Proof using W.
    unfold production_iter. destruct (map_get n (g_names g)) as [idxs|] eqn:E; [|discriminate].
    intros H; injection H as <-. destruct (wg_names _ _ W _ _ E) as (Hne & Hs & Hin).
    assert (Hlt : forall i, In i idxs -> i < length (g_prods g)).
    { intros i Hi. apply Hin in Hi as (p & Hp & _). apply nth_error_lt in Hp; exact Hp. }
    pose proof (prod_iter_all _ _ Hlt) as F.
    assert (Em : map fst (prod_iter (g_prods g) idxs) = idxs).
    { clear -F. induction F as [|i [j p] l l' [E _] F IH]; simpl in *; congruence. }
    split; [|split].
    - intros C. rewrite C in Em. simpl in Em. congruence.
    - rewrite Em; exact Hs.
    - intros i p. split.
      + intros Hip. apply (in_map fst) in Hip as Hi. rewrite Em in Hi. simpl in Hi.
        apply Hin in Hi as (q & Hq & Hn).
        assert (Eq : nth_error (g_prods g) i = Some p).
        { clear -F Hip. induction F as [|j [k r] l l' [E1 E2] F IH]; simpl in *; [tauto|].
          destruct Hip as [E|Hip]; [injection E as -> ->; congruence|auto]. }
        split; auto. congruence.
      + intros (Hp & Hn). assert (Hi : In i idxs) by (apply Hin; eauto).
        clear -F Hi Hp. induction F as [|j [k r] l l' [E1 E2] F IH]; simpl in *; [tauto|].
        destruct Hi as [->|Hi]; [left; congruence|auto].
  Qed.

  Lemma production_iter_defined n : (exists p, In p (g_prods g) /\ p_name p = n) <->
    exists ps, production_iter g n = Ok ps.
  Proof using W.
    unfold production_iter. destruct (map_get n (g_names g)) as [idxs|] eqn:E.
    - split; [eauto|]. intros _. destruct (wg_names _ _ W _ _ E) as (Hne & _ & Hin).
      destruct idxs as [|i idxs]; [tauto|]. destruct (proj1 (Hin i) (or_introl eq_refl)) as (p & Hp & Hn).
      eauto using nth_error_In.
    - split; [|intros [ps H]; discriminate]. intros (p & Hp & Hn). exfalso.
      eapply (wg_names_none _ _ W); eauto.
  Qed.

  Lemma get_token_idx_In x : In x (g_tokens g) <-> exists i, get_token_idx g x = Some i.
  Proof.
    unfold get_token_idx. split.
    - intros Hx. destruct (find_index _ _) as [i|] eqn:E; eauto.
      exfalso. pose proof (proj1 (find_index_none _ _) E x Hx) as Hn. simpl in Hn. rewrite eqb_refl in Hn. discriminate.
    - intros [i E]. apply find_index_some in E as ((y & Hy & Ey) & _). apply eqb_eq in Ey; subst.
      eauto using nth_error_In.
  Qed.

  Lemma get_token_of_idx x i : get_token_idx g x = Some i -> get_token g i = Some x.
  Proof.
    unfold get_token_idx, get_token. intros E.
    apply find_index_some in E as ((y & Hy & Ey) & _). apply eqb_eq in Ey; subst. exact Hy.
  Qed.

  Lemma tokens_nodup : eof_free g -> NoDup (g_tokens g).
  Proof using W.
    intros Hf. destruct (wg_tokens _ _ W) as (l & -> & Hs & Hin). constructor.
    - rewrite Hin. intros (p & Hp & Hx). exact (Hf p Hp Hx).
    - apply ssorted_NoDup, Hs.
  Qed.

  Lemma token_idx_bij x i : eof_free g -> get_token_idx g x = Some i <-> get_token g i = Some x.
  Proof using W.
    intros Hf. split; [apply get_token_of_idx|]. intros Hi.
    destruct (proj1 (get_token_idx_In x)) as [j Hj]; [eauto using nth_error_In|].
    rewrite Hj. f_equal. apply get_token_of_idx in Hj. unfold get_token in *.
    eapply (proj1 (NoDup_nth_error (g_tokens g))); [apply tokens_nodup, Hf| |congruence].
    apply nth_error_lt in Hj; exact Hj.
  Qed.

  Lemma token_of_body p x : In p (g_prods g) -> In x (p_syms p) -> In x (g_tokens g).
  Proof using W.
    intros Hp Hx. destruct (wg_tokens _ _ W) as (l & -> & _ & Hin). right. apply Hin. eauto.
  Qed.

  Lemma token_eof : get_token g 0 = Some SEof.
  Proof using W. destruct (wg_tokens _ _ W) as (l & E & _). unfold get_token. rewrite E. reflexivity. Qed.

  Lemma token_idx_eof : get_token_idx g SEof = Some 0.
  Proof using W.
    destruct (wg_tokens _ _ W) as (l & E & _). unfold get_token_idx. rewrite E. reflexivity.
  Qed.

  Lemma token_inv x i : get_token g i = Some x -> x = SEof \/ exists p, In p (g_prods g) /\ In x (p_syms p).
  Proof using W.
    intros E. apply nth_error_In in E. destruct (wg_tokens _ _ W) as (l & El & _ & Hin).
    rewrite El in E. destruct E as [<-|E]; auto. right. apply Hin, E.
  Qed.

  Lemma non_terms_from_In l : forall k i n, In (i, n) (non_terms_from k l) <->
    exists j, i = k + j /\ nth_error l j = Some (SNon n).
  Proof.
    induction l as [|x l IH]; intros k i n; cbn [non_terms_from].
    - split; [intros []|intros (j & _ & E); destruct j; discriminate].
    - assert (Hrest : In (i, n) (non_terms_from (S k) l) <->
                      exists j, i = k + j /\ 0 < j /\ nth_error (x :: l) j = Some (SNon n)).
      { rewrite IH. split.
        - intros (j & -> & E). exists (S j). repeat split; auto; lia.
        - intros (j & -> & Hj & E). destruct j; [lia|]. exists j. split; [lia|exact E]. }
      destruct (as_non x) as [m|] eqn:Ex.
      + destruct x; try discriminate. injection Ex as ->. simpl. rewrite Hrest. split.
        * intros [E|(j & H1 & H2 & H3)]; [|eauto].
          injection E as -> ->. exists 0. split; [lia|reflexivity].
        * intros (j & -> & E). destruct j.
          -- left. simpl in E. injection E as ->. f_equal. lia.
          -- right. exists (S j). repeat split; auto; lia.
      + rewrite Hrest. split.
        * intros (j & H1 & H2 & H3). eauto.
        * intros (j & -> & E). exists j. repeat split; auto. destruct j; [|lia].
          simpl in E. injection E as ->. discriminate.
  Qed.

  Lemma non_terminals_In n : (exists i, In (i, n) (non_terminals g)) <-> In (SNon n) (g_tokens g).
  Proof.
    unfold non_terminals. split.
    - intros [i H]. apply non_terms_from_In in H as (j & _ & E). eauto using nth_error_In.
    - intros H. apply In_nth_error in H as [j Hj]. exists j. apply non_terms_from_In. exists j. split; [reflexivity|exact Hj].
  Qed.
End Lookups.
