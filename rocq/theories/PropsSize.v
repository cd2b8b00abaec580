(** Property C66: the size of the parsing tables. *)
From Verif Require Import Base Grammar GrammarSpec GrammarProofs First Item ItemSpec ItemProofs ItemPlain
  Table TableSpec MergeProofs TableProofs TableFacts Witness PropsItem PropsTable ViableProofs TableSize.

(** At most [2 ^ n] states for [n] items (productions with a dot), and an entry of the action table for at most
    every state and token, one of the goto table for at most every state and named symbol. *)
Theorem C66_states :
  forall ast g, grammar_from_ast ast = Ok g -> forall hash t, make_tables hash g = Ok t ->
  length (t_states t) <= 2 ^ list_sum (map (fun p => S (length (p_syms p))) (g_prods g)) /\
  (forall i k a, tbl_get (t_action t) i k = Some a -> i < length (t_states t) /\ k < length (g_tokens g)) /\
  (forall i A j, tbl_get (t_goto t) i A = Some j -> i < length (t_states t) /\ In (SNon A) (g_tokens g)).
Proof.
  intros ast g Hg hash t Ht. destruct (grammar_from_ast_ok _ _ Hg) as (st & _ & W & _).
  destruct (make_tables_built _ _ _ _ W Ht) as (lr0 & m & B). pose proof (b_items _ _ _ _ _ B) as El. pose proof (b_merged _ _ _ _ _ B) as Hm.
  split; [|split].
  - rewrite <- all_items_length, <- (map_length core (t_states t)).
    transitivity (2 ^ length (set_of_list (all_items g))).
    + apply ssorted_count; [apply set_of_list_sorted|..].
      * apply NoDup_nth_error. intros i j Hi E. rewrite map_length in Hi. rewrite !nth_error_map in E.
        destruct (nth_error (t_states t) i) as [s|] eqn:Es; [|apply nth_error_None in Es; lia].
        destruct (nth_error (t_states t) j) as [s'|] eqn:Es'; [|discriminate E]. injection E as E. eapply lalr_core; eauto.
      * intros c Hc. apply in_map_iff in Hc as (s & <- & Hs). pose proof (lalr_wf lr0 _ m Hm s Hs) as [Hsr Hl]. split.
        -- exact Hsr.
        -- intros [p d] H. apply set_of_list_In. apply in_map_iff in H as (((p' & d') & las) & E & H). injection E as -> ->.
           destruct (Hl _ _ H) as [_ Hne]. destruct las as [|j las]; [congruence|].
           destruct (lalr_valid g _ W lr0 El _ m Hm s Hs p d j) as (pr & Hp & Hd & _); [exists (j :: las); simpl; auto|].
           eapply all_items_In; eauto.
    + apply Nat.pow_le_mono_r; [discriminate|]. apply NoDup_incl_length; [apply ssorted_NoDup, set_of_list_sorted|].
      intros x Hx. rewrite set_of_list_In in Hx. exact Hx.
  - intros i j a H. apply (b_action _ _ _ _ _ B) in H as (s & p & d & Hs & Hp). split; [apply nth_error_lt in Hs; exact Hs|].
    destruct Hp as [(_ & Hh & _)|(x & j' & _ & _ & [Hk _] & _)]; [|apply nth_error_lt in Hk; exact Hk].
    destruct (lalr_valid g _ W lr0 El _ m Hm s (nth_error_In _ _ Hs) p d j Hh) as (_ & _ & _ & H). exact H.
  - intros i A j H. apply (b_goto _ _ _ _ _ B) in H as (s & Hs & HA & _). split; auto. apply nth_error_lt in Hs. exact Hs.
Qed.
Print Assumptions C66_states.

(** And it can be exponentially many: there are grammars of [2 * k + 7] productions with at most two symbols each,
    for which every collision-free hash gives tables, with at least [2 ^ (k + 1)] states. *)
Theorem C66_polynomial_refuted :
  forall k, exists g lr0, grammar_from_ast (kth_ast k) = Ok g /\
  length (g_prods g) = 2 * k + 7 /\ Forall (fun p => length (p_syms p) <= 2) (g_prods g) /\
  items g = Ok lr0 /\ (exists hash, collision_free hash lr0) /\
  forall hash, collision_free hash lr0 -> exists t, make_tables hash g = Ok t /\ 2 ^ (k + 1) <= length (t_states t).
Proof.
  intros k. destruct (kth_prods k) as (g & Hg & W & Hr). pose proof (kth_eps_free k g Hr) as He.
  destruct (kth_items k g W Hr) as [lr0 El]. exists g, lr0. split; auto.
  assert (Hlen : length (g_prods g) = length (kth_rules k)) by (rewrite <- Hr, map_length; reflexivity).
  split; [|split; [|split; [|split]]]; auto.
  - rewrite Hlen. unfold kth_rules. cbn [length]. rewrite app_length. cbn [length].
    assert (G : forall l : list nat, length (flat_map (fun i => [(nY (S i), [SNon nA; SNon (nY i)]); (nY (S i), [SNon nB; SNon (nY i)])]) l) = 2 * length l).
    { induction l as [|i l IH]; auto. cbn [flat_map app length]. rewrite IH. lia. }
    rewrite G, seq_length. lia.
  - apply Forall_forall. intros p Hp. apply In_nth_error in Hp as [i Hi].
    assert (H : kth_rule k (p_name p) (p_syms p)) by (apply (idx_rule k i); apply (idx_prod k g Hr); eauto).
    destruct H; simpl; lia.
  - exists ehash. apply ehash_free.
  - intros hash Hc. destruct (proj2 (C27_tables_built_iff _ _ Hg He hash)) as [t Ht].
    { exists lr0. split; auto. split; auto. apply (kth_no_conflict k g Hr). }
    exists t. split; auto. destruct (C26_states_are_lalr _ _ Hg He hash t Ht) as (_ & Hall & _).
    rewrite Nat.add_1_r, <- bwords_length.
    apply (relation_count (fun w i => exists s, nth_error (t_states t) i = Some s /\ set_eq (has s) (lalr_of g (F_std g) (lr_at g (syms_of w)))));
      [apply bwords_nodup|..].
    + intros w _. destruct (Hall _ (word_is_state k g W Hr w)) as (i & s & Hi & Hs). exists i. split; [apply nth_error_lt in Hi; exact Hi|eauto].
    + intros u v i Hu Hv (s & Hi & Hs) (s' & Hi' & Hs'). rewrite Hi in Hi'. injection Hi' as <-.
      apply bwords_In in Hu. apply bwords_In in Hv. apply (same_core_word k g W Hr u v Hu Hv).
      assert (G : forall w, same_core (lr_at g (syms_of w)) (lalr_of g (F_std g) (lr_at g (syms_of w)))).
      { intros w p d. split.
        - intros [j Hj]. exists j, (lr_at g (syms_of w)). split; [apply (word_is_state k g W Hr w)|]. split; auto. intros p' d'. reflexivity.
        - intros (j & I' & _ & Hq & Hj). apply Hq. eauto. }
      intros p d. rewrite (G u p d), (G v p d). split; intros [j Hj]; exists j.
      * apply Hs', Hs, Hj.
      * apply Hs, Hs', Hj.
Qed.
Print Assumptions C66_polynomial_refuted.

(** The hypotheses are met: the tables for [k = 1], with their number of states. *)
Example C66_nonvacuous :
  exists g t, grammar_from_ast (kth_ast 1) = Ok g /\ make_tables ehash g = Ok t /\ length (g_prods g) = 9 /\
    length (t_states t) = 14 /\ list_sum (map (fun p => S (length (p_syms p))) (g_prods g)) = 23.
Proof.
  destruct (grammar_from_ast (kth_ast 1)) as [g| |] eqn:Eg; [|vm_compute in Eg; discriminate Eg..].
  destruct (make_tables ehash g) as [t| |] eqn:Et; [|vm_compute in Eg; injection Eg as <-; vm_compute in Et; discriminate Et..].
  exists g, t. split; auto. split; [exact Et|]. vm_compute in Eg. injection Eg as <-. vm_compute in Et. injection Et as <-.
  vm_compute. auto.
Qed.
