(** Tokens with rules of their own: derivations, item sets and conflicts of the two grammars. *)
From Verif Require Import Base IsoSpec Grammar GrammarSpec GrammarProofs First FirstProofs Item ItemSpec ItemProofs ItemPlain
  Table TableSpec MergeProofs TableProofs TableFacts Iso IsoGrammar ParseSpec TreeFacts EndSpec Useless UselessGrammar OwnSpec.

Section Own.
  Variables (names : list (sym * str)) (ast ast' : list aprod) (g g' : grammar) (start : str).
  Hypothesis HO : own_rules names ast ast'.
  Hypothesis W : wf_grammar g start.
  Hypothesis W' : wf_grammar g' start.
  Hypothesis Eg : map shape (g_prods g) = (aug_name start, [SNon start]) :: ast_rules ast.
  Hypothesis Eg' : map shape (g_prods g') = (aug_name start, [SNon start]) :: ast_rules ast'.
  Hypothesis Hfresh : forall n, In n (map snd names) -> ~ In n (aug_name start :: start :: ast_names ast).
  Hypothesis He : eps_free g.

  Notation F := (F_std g).
  Notation F' := (F_std g').
  Let N := length (g_prods g).
  Notation w := (own names).

  Lemma own_in x n : In (x, n) names -> w x = SNon n.
  Proof using HO.
    intros H. unfold own. destruct (find (fun e => eqb (fst e) x) names) as [[y m]|] eqn:E.
    - apply find_some in E as [Hi E]. apply eqb_eq in E. cbn in E |- *. subst y. f_equal.
      pose proof (ow_tokens _ _ _ HO) as Hn. clear -H Hi Hn. induction names as [|[y k] l IH]; [destruct H|]. cbn [map fst] in Hn. inversion Hn as [|? ? H1 H2]; subst.
      destruct H as [H|H], Hi as [Hi|Hi].
      + congruence.
      + injection H as -> ->. destruct H1. apply in_map_iff. exists (x, m). auto.
      + injection Hi as -> ->. destruct H1. apply in_map_iff. exists (x, n). auto.
      + auto.
    - exfalso. apply (find_none _ _ E) in H. cbn in H. rewrite eqb_refl in H. discriminate.
  Qed.
  Lemma own_out x : ~ In x (map fst names) -> w x = x.
  Proof.
    intros H. unfold own. destruct (find (fun e => eqb (fst e) x) names) as [[y m]|] eqn:E; auto.
    apply find_some in E as [Hi E]. apply eqb_eq in E. cbn in E. subst y. destruct H. apply in_map_iff. exists (x, m). auto.
  Qed.
  Lemma own_cases x : (exists n, In (x, n) names /\ w x = SNon n /\ terminal x) \/ (~ In x (map fst names) /\ w x = x).
  Proof using HO.
    destruct (in_dec ord_dec x (map fst names)) as [H|H]; [|right; split; auto using own_out].
    left. apply in_map_iff in H as ([y n] & E & H). cbn in E. subst y. exists n. split; auto. split; [apply own_in; auto|apply (ow_used _ _ _ HO _ _ H)].
  Qed.
  Lemma own_non A : w (SNon A) = SNon A.
  Proof using HO. destruct (own_cases (SNon A)) as [(n & _ & _ & H)|[_ H]]; auto. destruct (H A eq_refl). Qed.
  Lemma name_one x y n : In (x, n) names -> In (y, n) names -> x = y.
  Proof using HO.
    intros H1 H2. pose proof (ow_names _ _ _ HO) as Hn. clear -H1 H2 Hn. induction names as [|[z k] l IH]; [destruct H1|]. cbn [map snd] in Hn.
    inversion Hn as [|? ? H3 H4]; subst. destruct H1 as [H1|H1], H2 as [H2|H2].
    - congruence.
    - injection H1 as -> ->. destruct H3. apply in_map_iff. exists (y, n). auto.
    - injection H2 as -> ->. destruct H3. apply in_map_iff. exists (x, n). auto.
    - auto.
  Qed.

  (** The productions. *)
  Lemma prods_eq : map shape (g_prods g') = map (fun e => (fst e, map w (snd e))) (map shape (g_prods g)) ++ map (fun e => (snd e, [fst e])) names.
  Proof using HO Eg Eg'. rewrite Eg, Eg', (ow_rules _ _ _ HO). cbn [map fst snd app]. rewrite own_non. reflexivity. Qed.
  Lemma fw_prod p pr : nth_error (g_prods g) p = Some pr -> exists pr', nth_error (g_prods g') p = Some pr' /\ p_name pr' = p_name pr /\ p_syms pr' = map w (p_syms pr).
  Proof using HO Eg Eg'.
    intros H. pose proof (nth_error_lt _ _ _ H) as L. pose proof prods_eq as E. apply (f_equal (fun l => nth_error l p)) in E.
    rewrite nth_error_app1 in E by (rewrite !map_length; exact L). rewrite map_map in E. rewrite (map_nth_error (fun x => (fst (shape x), map w (snd (shape x)))) _ _ H) in E.
    rewrite nth_error_map in E. destruct (nth_error (g_prods g') p) as [pr'|]; [|discriminate]. cbn in E. injection E as E1 E2. exists pr'. auto.
  Qed.
  Lemma new_prod j x n : nth_error names j = Some (x, n) -> exists pr', nth_error (g_prods g') (N + j) = Some pr' /\ p_name pr' = n /\ p_syms pr' = [x].
  Proof using HO Eg Eg'.
    intros H. pose proof prods_eq as E. apply (f_equal (fun l => nth_error l (N + j))) in E.
    rewrite nth_error_app2 in E by (rewrite !map_length; unfold N; lia). rewrite !map_length in E. replace (N + j - length (g_prods g)) with j in E by (unfold N; lia).
    rewrite (map_nth_error _ _ _ H) in E. rewrite nth_error_map in E. destruct (nth_error (g_prods g') (N + j)) as [pr'|]; [|discriminate].
    cbn in E. injection E as E1 E2. exists pr'. auto.
  Qed.
  Lemma bw_prod p pr' : nth_error (g_prods g') p = Some pr' ->
    (exists pr, nth_error (g_prods g) p = Some pr /\ p < N /\ p_name pr' = p_name pr /\ p_syms pr' = map w (p_syms pr)) \/
    (exists j x n, p = N + j /\ nth_error names j = Some (x, n) /\ p_name pr' = n /\ p_syms pr' = [x]).
  Proof using HO Eg Eg'.
    intros H. destruct (Nat.lt_ge_cases p N) as [L|L].
    - left. destruct (nth_error (g_prods g) p) as [pr|] eqn:E; [|apply nth_error_None in E; unfold N in L; lia].
      destruct (fw_prod _ _ E) as (q & Hq & H1 & H2). rewrite H in Hq. injection Hq as <-. exists pr. auto.
    - right. assert (Hl : length (g_prods g') = N + length names).
      { pose proof prods_eq as E. apply (f_equal (@length _)) in E. rewrite app_length, !map_length in E. exact E. }
      pose proof (nth_error_lt _ _ _ H) as L'. destruct (nth_error names (p - N)) as [[x n]|] eqn:E; [|apply nth_error_None in E; lia].
      destruct (new_prod _ _ _ E) as (q & Hq & H1 & H2). replace (N + (p - N)) with p in Hq by lia. rewrite H in Hq. injection Hq as <-.
      exists (p - N), x, n. split; [lia|]. auto.
  Qed.

  (** The new names are used nowhere. *)
  Lemma prod_name pr : In pr (g_prods g) -> ~ In (p_name pr) (map snd names).
  Proof using Eg Hfresh.
    intros H Hn. apply (Hfresh _ Hn). apply (in_map shape) in H. rewrite Eg in H. destruct H as [H|H].
    - unfold shape in H. injection H as H _. left. auto.
    - right. right. unfold ast_names. apply in_flat_map. exists (shape pr). split; auto. left. reflexivity.
  Qed.
  Lemma body_name pr n : In pr (g_prods g) -> In (SNon n) (p_syms pr) -> ~ In n (map snd names).
  Proof using Eg Hfresh.
    intros H Hx Hn. apply (Hfresh _ Hn). apply (in_map shape) in H. rewrite Eg in H. destruct H as [H|H].
    - unfold shape in H. injection H as _ H. rewrite <- H in Hx. destruct Hx as [Hx|[]]. injection Hx as <-. right. left. reflexivity.
    - right. right. unfold ast_names. apply in_flat_map. exists (shape pr). split; auto. right. apply in_flat_map. exists (SNon n). split; [exact Hx|left; reflexivity].
  Qed.
  Lemma start_name : ~ In start (map snd names).
  Proof using Hfresh. intros H. apply (Hfresh _ H). right. left. reflexivity. Qed.
  Lemma in_names_snd x n : In (x, n) names -> In n (map snd names).
  Proof. intros H. apply in_map_iff. exists (x, n). auto. Qed.

  (** A symbol of a body that is written [y] in the new grammar. *)
  Lemma own_back pr x A : In pr (g_prods g) -> In x (p_syms pr) -> w x = SNon A -> (x = SNon A /\ ~ In A (map snd names)) \/ In (x, A) names.
  Proof using HO Eg Hfresh.
    intros Hp Hx E. destruct (own_cases x) as [(n & Hn & E' & _)|[_ E']].
    - right. rewrite E' in E. injection E as ->. exact Hn.
    - left. rewrite E' in E. subst x. split; auto. eapply body_name; eauto.
  Qed.
  Lemma own_inj pr pr2 x y : In pr (g_prods g) -> In x (p_syms pr) -> In pr2 (g_prods g) -> In y (p_syms pr2) -> w x = w y -> x = y.
  Proof using HO Eg Hfresh.
    intros H1 H2 H3 H4 E. destruct (own_cases x) as [(n & Hn & E' & _)|[H E']].
    - rewrite E' in E. symmetry in E. destruct (own_back _ _ _ H3 H4 E) as [[_ C]|Hy]; [destruct C; eapply in_names_snd; eauto|eapply name_one; eauto].
    - rewrite E' in E. destruct (own_cases y) as [(n & Hn & E2 & _)|[_ E2]]; [|congruence].
      rewrite E2 in E. subst x. destruct (body_name _ _ H1 H2). eapply in_names_snd; eauto.
  Qed.

  (** Rules. *)
  Lemma rule_fw A b : rule g A b -> rule g' A (map w b).
  Proof using HO Eg Eg'.
    intros (p & Hp & <- & <-). apply In_nth_error in Hp as [i Hi]. destruct (fw_prod _ _ Hi) as (q & Hq & H1 & H2). exists q. eauto using nth_error_In.
  Qed.
  Lemma rule_new x n : In (x, n) names -> rule g' n [x].
  Proof using HO Eg Eg'.
    intros H. apply In_nth_error in H as [j Hj]. destruct (new_prod _ _ _ Hj) as (q & Hq & H1 & H2). exists q. eauto using nth_error_In.
  Qed.
  Lemma rule_bw A b' : rule g' A b' -> (exists b, rule g A b /\ b' = map w b /\ ~ In A (map snd names)) \/ (exists x, In (x, A) names /\ b' = [x]).
  Proof using HO Eg Eg' Hfresh.
    intros (p & Hp & <- & <-). apply In_nth_error in Hp as [i Hi]. destruct (bw_prod _ _ Hi) as [(pr & H1 & _ & H2 & H3)|(j & x & n & _ & Hj & H2 & H3)].
    - left. exists (p_syms pr). rewrite H2. split; [exists pr; eauto using nth_error_In|]. split; auto. apply prod_name. eauto using nth_error_In.
    - right. exists x. rewrite H2. split; [eauto using nth_error_In|auto].
  Qed.

  (** Sentential forms that differ by names for tokens. *)
  Definition wrel1 (y x : sym) : Prop := y = x /\ (forall n, x = SNon n -> ~ In n (map snd names)) \/ exists n, In (x, n) names /\ y = SNon n.
  Definition wrel : list sym -> list sym -> Prop := Forall2 wrel1.

  Lemma wrel_own pr l : In pr (g_prods g) -> incl l (p_syms pr) -> wrel (map w l) l.
  Proof using HO Eg Hfresh.
    intros Hp. induction l as [|x l IH]; intros Hi; [constructor|]. constructor; [|apply IH; intros y Hy; apply Hi; right; auto].
    destruct (own_cases x) as [(n & Hn & E & _)|[_ E]]; [right; eauto|left]. split; auto. intros n ->. apply (body_name _ n Hp). apply Hi. left. reflexivity.
  Qed.

  Lemma wrel1_own pr x : In pr (g_prods g) -> In x (p_syms pr) -> wrel1 (w x) x.
  Proof using HO Eg Hfresh.
    intros Hp Hx. assert (R : wrel (map w [x]) [x]) by (apply (wrel_own pr); auto; intros u [<-|[]]; auto). inversion R; auto.
  Qed.

  Lemma derives_fw u v : derives g u v -> forall u', wrel u' u -> exists v', wrel v' v /\ derives g' u' v'.
  Proof using HO Eg Eg' Hfresh.
    induction 1 as [u|u v z Hs _ IH]; intros u' Hu; [exists u'; split; auto; constructor|].
    inversion Hs as [a A b c Hr E1 E2]; subst. apply Forall2_app_inv_r in Hu as (a' & c0 & Ha & Hc & ->). inversion Hc as [|y x c' l Hy Hc']; subst.
    assert (y = SNon A) as ->.
    { destruct Hy as [[-> _]|(n & Hn & _)]; auto. destruct (proj1 (ow_used _ _ _ HO _ _ Hn) A eq_refl). }
    destruct (IH (a' ++ map w b ++ c')) as (v' & Hv & Hd).
    - apply Forall2_app; auto. apply Forall2_app; auto. destruct Hr as (p & Hp & _ & <-). apply (wrel_own p); auto. apply incl_refl.
    - exists v'. split; auto. econstructor; [|exact Hd]. constructor. apply rule_fw, Hr.
  Qed.
  Lemma derives_bw u' v' : derives g' u' v' -> forall u, wrel u' u -> exists v, wrel v' v /\ derives g u v.
  Proof using HO Eg Eg' Hfresh.
    induction 1 as [u|u v z Hs _ IH]; intros u0 Hu; [exists u0; split; auto; constructor|].
    inversion Hs as [a A b c Hr E1 E2]; subst. apply Forall2_app_inv_l in Hu as (a0 & c0 & Ha & Hc & ->). inversion Hc as [|y x c' l Hy Hc']; subst.
    destruct (rule_bw _ _ Hr) as [(b0 & Hr0 & -> & Hn)|(t & Ht & ->)].
    - destruct Hy as [[<- _]|(n & Hn' & E)]; [|injection E as ->; destruct Hn; eapply in_names_snd; eauto].
      destruct (IH (a0 ++ b0 ++ l)) as (v' & Hv & Hd).
      + apply Forall2_app; auto. apply Forall2_app; auto. destruct Hr0 as (p & Hp & _ & <-). apply (wrel_own p); auto. apply incl_refl.
      + exists v'. split; auto. econstructor; [|exact Hd]. constructor. exact Hr0.
    - destruct Hy as [[<- C]|(n & Hn' & E)]; [destruct (C A eq_refl); eapply in_names_snd; eauto|]. injection E as <-.
      pose proof (name_one _ _ _ Ht Hn') as ->. destruct (IH (a0 ++ [x] ++ l)) as (v' & Hv & Hd); [|eauto].
      apply Forall2_app; auto. constructor; auto. left. split; auto. intros m ->. destruct (proj1 (ow_used _ _ _ HO _ _ Ht) m eq_refl).
  Qed.
  Lemma wrel_refl l : (forall n, In (SNon n) l -> ~ In n (map snd names)) -> wrel l l.
  Proof. induction l as [|x l IH]; intros H; constructor; [left; split; auto; intros n ->; apply H; left; reflexivity|apply IH; intros; apply H; right; auto]. Qed.
  Lemma wrel_terminals l' l : terminals l' -> wrel l' l -> l' = l.
  Proof.
    intros Ht H. induction H as [|y x l' l Hy _ IH]; auto. inversion Ht as [|? ? H1 H2]; subst. f_equal; auto. destruct Hy as [[-> _]|(n & _ & ->)]; auto. destruct (H1 n eq_refl).
  Qed.
  (** The names can be replaced. *)
  Lemma wrel_derives l' l : wrel l' l -> derives g' l' l.
  Proof using HO Eg Eg'.
    induction 1 as [|y x l' l Hy _ IH]; [constructor|]. pose proof (derives_ctx g' [x] _ _ [] IH) as D. rewrite !app_nil_r in D.
    destruct Hy as [[-> _]|(n & Hn & ->)]; auto. econstructor; [|exact D]. apply (derives1_intro g' [] n [x] l'). apply rule_new, Hn.
  Qed.
  Lemma derives_same l : terminals l -> derives g' [SNon start] l <-> derives g [SNon start] l.
  Proof using HO Eg Eg' Hfresh.
    intros Hl. assert (R : wrel [SNon start] [SNon start]) by (apply wrel_refl; intros n [E|[]]; injection E as <-; apply start_name). split; intros H.
    - destruct (derives_bw _ _ H _ R) as (v & Hv & Hd). rewrite (wrel_terminals _ _ Hl Hv). exact Hd.
    - destruct (derives_fw _ _ H _ R) as (v & Hv & Hd). eapply derives_trans; [exact Hd|apply wrel_derives, Hv].
  Qed.

  (** FIRST. *)
  Lemma rest_own p pr d : nth_error (g_prods g) p = Some pr -> rest g' p d = map w (rest g p d).
  Proof using HO Eg Eg'.
    intros H. destruct (fw_prod _ _ H) as (q & Hq & _ & E). unfold rest. rewrite H, Hq, E. apply skipn_map.
  Qed.
  Lemma first_same p pr d a b : nth_error (g_prods g) p = Some pr -> terminal a -> F' (rest g' p d ++ [a]) b <-> F (rest g p d ++ [a]) b.
  Proof using HO Eg Eg' Hfresh.
    intros Hp Ha. rewrite (rest_own _ _ _ Hp).
    assert (R : wrel (map w (rest g p d) ++ [a]) (rest g p d ++ [a])).
    { apply Forall2_app.
      - apply (wrel_own pr); [eauto using nth_error_In|]. unfold rest. rewrite Hp. intros x Hx. rewrite <- (firstn_skipn d (p_syms pr)). apply in_or_app. auto.
      - constructor; [|constructor]. left. split; auto. intros n ->. destruct (Ha n eq_refl). }
    split; intros [Hb (v & Hv)]; (split; [exact Hb|]).
    - destruct (derives_bw _ _ Hv _ R) as (z & Hz & Hd). inversion Hz as [|y x l' l Hy Hl]; subst. exists l.
      destruct Hy as [[-> _]|(n & _ & ->)]; auto. destruct (Hb n eq_refl).
    - destruct (derives_fw _ _ Hv _ R) as (z & Hz & Hd). inversion Hz as [|y x l' l Hy Hl]; subst. exists v. eapply derives_trans; [exact Hd|]. apply wrel_derives. constructor; auto.
  Qed.

  (** Items. *)
  Lemma sym_fw p d x : sym_at g p d x -> sym_at g' p d (w x).
  Proof using HO Eg Eg'.
    intros (pr & Hp & Hd). destruct (fw_prod _ _ Hp) as (q & Hq & _ & E). exists q. split; auto. rewrite E. apply map_nth_error, Hd.
  Qed.
  Lemma sym_new j x n : nth_error names j = Some (x, n) -> sym_at g' (N + j) 0 x.
  Proof using HO Eg Eg'. intros H. destruct (new_prod _ _ _ H) as (q & Hq & _ & E). exists q. split; auto. rewrite E. reflexivity. Qed.
  Lemma sym_bw p d y : sym_at g' p d y -> (p < N /\ exists x, sym_at g p d x /\ y = w x) \/ (exists j n, p = N + j /\ nth_error names j = Some (y, n) /\ d = 0).
  Proof using HO Eg Eg'.
    intros (q & Hq & Hd). destruct (bw_prod _ _ Hq) as [(pr & Hp & L & _ & E)|(j & x & n & -> & Hj & _ & E)]; rewrite E in Hd.
    - left. split; auto. rewrite nth_error_map in Hd. destruct (nth_error (p_syms pr) d) as [x|] eqn:Ex; [|discriminate]. injection Hd as <-. exists x. split; auto. exists pr. auto.
    - right. exists j, n. destruct d as [|[|d]]; [injection Hd as ->|discriminate|discriminate]. auto.
  Qed.
  Lemma sym_in p d x : sym_at g p d x -> exists pr, In pr (g_prods g) /\ In x (p_syms pr).
  Proof. intros (pr & H1 & H2). exists pr. eauto using nth_error_In. Qed.
  Lemma complete_bw p d : complete g' p d -> (complete g p d /\ p < N) \/ (exists j, p = N + j /\ d = 1 /\ j < length names).
  Proof using HO Eg Eg'.
    intros (q & Hq & ->). destruct (bw_prod _ _ Hq) as [(pr & Hp & L & _ & E)|(j & x & n & -> & Hj & _ & E)]; rewrite E.
    - left. split; auto. exists pr. rewrite map_length. auto.
    - right. exists j. split; auto. split; auto. eauto using nth_error_lt.
  Qed.

  (** Tokens. *)
  Lemma token_fw a : In a (g_tokens g) -> terminal a -> In a (g_tokens g').
  Proof using HO W W' Eg Eg'.
    destruct (wg_tokens _ _ W) as (l & El & _ & Hl), (wg_tokens _ _ W') as (l' & El' & _ & Hl'). rewrite El, El'. intros [H|H] Ha; [left; auto|right].
    apply Hl in H as (p & Hp & Hx). apply Hl'. destruct (own_cases a) as [(n & Hn & _)|[_ E]].
    - destruct (rule_new _ _ Hn) as (q & Hq & _ & Eq). exists q. split; auto. rewrite Eq. left. reflexivity.
    - apply In_nth_error in Hp as [i Hi]. destruct (fw_prod _ _ Hi) as (q & Hq & _ & Eq). exists q. split; [eauto using nth_error_In|]. rewrite Eq. apply in_map_iff. exists a. auto.
  Qed.
  Lemma token_bw a : In a (g_tokens g') -> terminal a -> In a (g_tokens g).
  Proof using HO W W' Eg Eg'.
    destruct (wg_tokens _ _ W) as (l & El & _ & Hl), (wg_tokens _ _ W') as (l' & El' & _ & Hl'). rewrite El, El'. intros [H|H] Ha; [left; auto|right].
    apply Hl' in H as (q & Hq & Hx). apply Hl. apply In_nth_error in Hq as [i Hi]. destruct (bw_prod _ _ Hi) as [(pr & Hp & _ & _ & E)|(j & x & n & _ & Hj & _ & E)]; rewrite E in Hx.
    - apply in_map_iff in Hx as (x & Ex & Hx). exists pr. split; [eauto using nth_error_In|]. destruct (own_cases x) as [(n & _ & E' & _)|[_ E']]; [rewrite E' in Ex; subst a; destruct (Ha n eq_refl)|congruence].
    - destruct Hx as [<-|[]]. destruct (proj2 (ow_used _ _ _ HO _ _ (nth_error_In _ _ Hj))) as (A & b & Hr & Hx).
      assert (In (A, b) (map shape (g_prods g))) as Hi' by (rewrite Eg; right; exact Hr). apply in_map_iff in Hi' as (pr & Es & Hp). exists pr. split; auto.
      unfold shape in Es. injection Es as _ ->. exact Hx.
  Qed.

  (** Look-aheads with the same symbol. *)
  Definition lrel (k k' : nat) : Prop := exists a, terminal a /\ tok g k a /\ tok g' k' a.
  Definition img (K : lrset) : lrset := fun p d k' => exists k, K p d k /\ lrel k k'.
  (** The items of the new grammar for a set of the old one. *)
  Definition wimg (I : lrset) : lrset := fun p d k' => img I p d k' \/
    exists j x n p0 d0 k0 a b, nth_error names j = Some (x, n) /\ p = N + j /\ d = 0 /\ I p0 d0 k0 /\ sym_at g p0 d0 x /\ tok g k0 a /\
      F (rest g p0 (S d0) ++ [a]) b /\ tok g' k' b.
  Definition la_ok (I : lrset) : Prop := forall p d k, I p d k -> p < N /\ exists a, terminal a /\ tok g k a.

  Lemma lrel_total k a : terminal a -> tok g k a -> exists k', lrel k k'.
  Proof using HO W W' Eg Eg'. intros Ha Hk. destruct (tok_ex g' a) as [k' Hk']; [apply token_fw; auto; eapply nth_error_In, Hk|]. exists k', a. auto. Qed.
  Lemma la_clo K : la_ok K -> la_ok (clo g F K).
  Proof using Type.
    intros H p d k Hk. induction Hk as [p d k Hk|p d k a q pq b k' _ IH Hs Hq Ha HF Ht]; [apply H in Hk; auto|]. split; [unfold N; eauto using nth_error_lt|]. exists b. split; [apply HF|auto].
  Qed.

  Lemma clo_fw (K K' : lrset) : la_ok K -> (forall p d k', img K p d k' -> K' p d k') -> forall p d k, clo g F K p d k -> forall k', lrel k k' -> clo g' F' K' p d k'.
  Proof using HO W W' Eg Eg' Hfresh.
    intros HK Hi p d k H. induction H as [p d k Hk|p d k a q pq b k1 H IH Hs Hq Ha HF Ht]; intros k' Hr.
    - apply clo_base, Hi. exists k. auto.
    - destruct (la_clo _ HK _ _ _ H) as (Lp & a0 & Ha0 & Hk0). assert (a0 = a) as -> by (destruct Hk0; congruence).
      destruct (lrel_total _ _ Ha0 Hk0) as (k0' & Hr0). destruct (fw_prod _ _ Hq) as (pq' & Hq' & En & _).
      destruct Hr0 as (a' & Ha' & T1 & T2). pose proof (tok_one _ _ _ _ Hk0 T1) as <-.
      destruct Hr as (b' & Hb' & T3 & T4). pose proof (tok_one _ _ _ _ Ht T3) as <-.
      destruct Hs as (pr & Hp & Hd).
      apply (clo_rule g' F' K' p d k0' a q pq' b k').
      + apply IH. exists a. auto.
      + rewrite En. pose proof (sym_fw p d _ (ex_intro _ pr (conj Hp Hd))) as S. rewrite own_non in S. exact S.
      + exact Hq'.
      + apply T2.
      + apply (first_same _ _ _ _ _ Hp Ha0), HF.
      + exact T4.
  Qed.

  Lemma clo_bw (K K' : lrset) : la_ok K -> (forall p d k', K' p d k' -> img K p d k') -> forall p d k', clo g' F' K' p d k' -> wimg (clo g F K) p d k'.
  Proof using HO W W' Eg Eg' Hfresh.
    intros HK Hi p d k' H. induction H as [p d k' Hk|p d k' a q pq b k1 H IH Hs Hq Ha HF Ht].
    - left. destruct (Hi _ _ _ Hk) as (k & Hk' & Hr). exists k. split; auto. constructor. exact Hk'.
    - destruct IH as [(k & Hk & (a0 & Ha0 & T1 & T2))|(j & x & n & p0 & d0 & k0 & a0 & b0 & Hj & -> & -> & _)].
      + assert (a0 = a) as -> by (destruct T2; congruence). destruct (la_clo _ HK _ _ _ Hk) as (Lp & _).
        destruct (sym_bw _ _ _ Hs) as [(_ & x & Hx & Ex)|(j & n & -> & _)]; [|lia]. destruct (sym_in _ _ _ Hx) as (pr & Hpr & Hin). symmetry in Ex.
        destruct Hx as (pr0 & Hp0 & Hd0). pose proof (proj1 (first_same _ _ _ _ _ Hp0 Ha0) HF) as HF0. pose proof (proj1 HF) as Hb.
        destruct (own_back _ _ _ Hpr Hin Ex) as [[-> Hn]|Hn].
        * destruct (bw_prod _ _ Hq) as [(pq0 & Hq0 & _ & En & _)|(j & x & n & _ & Hj & En & _)].
          2:{ destruct Hn. rewrite En. eapply in_names_snd, nth_error_In, Hj. }
          destruct (tok_ex g b) as [k2 Hk2]; [apply token_bw; auto; eapply nth_error_In, Ht|].
          left. exists k2. split; [|exists b; auto]. apply (clo_rule g F K p d k a q pq0 b k2); auto; [exists pr0; rewrite <- En; auto|apply T1].
        * destruct (bw_prod _ _ Hq) as [(pq0 & Hq0 & _ & En & _)|(j & x' & n & -> & Hj & En & _)].
          { destruct (prod_name pq0); [eauto using nth_error_In|]. rewrite <- En. eapply in_names_snd; eauto. }
          subst n. pose proof (name_one _ _ _ Hn (nth_error_In _ _ Hj)) as <-.
          right. exists j, x, (p_name pq), p, d, k, a, b. repeat (split; auto). exists pr0. auto.
      + exfalso. pose proof (sym_new _ _ _ Hj) as S. destruct Hs as (q1 & E1 & D1), S as (q2 & E2 & D2). rewrite E1 in E2. injection E2 as <-. rewrite D1 in D2. injection D2 as D2.
        destruct (proj1 (ow_used _ _ _ HO _ _ (nth_error_In _ _ Hj)) (p_name pq)). auto.
  Qed.

  Lemma wimg_fw (K K' : lrset) : la_ok K -> (forall p d k', img K p d k' -> K' p d k') -> forall p d k', wimg (clo g F K) p d k' -> clo g' F' K' p d k'.
  Proof using HO W W' Eg Eg' Hfresh.
    intros HK Hi p d k' [(k & Hk & Hr)|(j & x & n & p0 & d0 & k0 & a & b & Hj & -> & -> & Hk & Hs & Ta & HF & Tb)].
    - apply (clo_fw _ _ HK Hi _ _ _ Hk _ Hr).
    - destruct (la_clo _ HK _ _ _ Hk) as (_ & a0 & Ha & T0). pose proof (tok_one _ _ _ _ Ta T0) as <-. destruct (lrel_total _ _ Ha Ta) as (k1 & Hr).
      pose proof (clo_fw _ _ HK Hi _ _ _ Hk _ Hr) as Hc. destruct Hr as (a' & Ha' & T1 & T2). pose proof (tok_one _ _ _ _ Ta T1) as <-.
      destruct (new_prod _ _ _ Hj) as (pq & Hq & En & _). destruct Hs as (pr & Hp & Hd).
      apply (clo_rule g' F' K' p0 d0 k1 a (N + j) pq b k'); auto.
      + rewrite En, <- (own_in _ _ (nth_error_In _ _ Hj)). apply sym_fw. exists pr. auto.
      + apply T2.
      + apply (first_same _ _ _ _ _ Hp Ha), HF.
  Qed.
  Lemma clo_wimg (K K' : lrset) : la_ok K -> set_eq K' (img K) -> set_eq (clo g' F' K') (wimg (clo g F K)).
  Proof using HO W W' Eg Eg' Hfresh.
    intros HK Hq p d k. split; [apply clo_bw; auto; intros; apply Hq; auto|apply wimg_fw; auto; intros; apply Hq; auto].
  Qed.

  Lemma img_init : set_eq init_set (img init_set).
  Proof using W W'.
    destruct (wg_tokens _ _ W) as (l & El & _), (wg_tokens _ _ W') as (l' & El' & _).
    assert (T : tok g 0 SEof) by (split; [rewrite El; reflexivity|intros j Hj; lia]). assert (T' : tok g' 0 SEof) by (split; [rewrite El'; reflexivity|intros j Hj; lia]).
    intros p d k. split.
    - intros (-> & -> & ->). exists 0. split; [repeat split|]. exists SEof. split; [intros n C; discriminate|auto].
    - intros (k0 & (-> & -> & ->) & (a & _ & T1 & T2)). pose proof (tok_one _ _ _ _ T T1) as <-. repeat split. eapply tok_first; eauto.
  Qed.
  Lemma la_init : la_ok init_set.
  Proof using W.
    intros p d k (-> & -> & ->). split; [unfold N; pose proof (nth_error_lt _ _ _ (wg_prod0 _ _ W)); auto|]. exists SEof. split; [intros n C; discriminate|].
    destruct (wg_tokens _ _ W) as (l & El & _). split; [rewrite El; reflexivity|intros j Hj; lia].
  Qed.
  Lemma la_move I x : la_ok I -> la_ok (move g I x).
  Proof using Type. intros H p d k (d' & -> & Hk & _). apply H in Hk. auto. Qed.
  Lemma la_state I : lr_state g F I -> la_ok I.
  Proof using W. induction 1; apply la_clo; [apply la_init|apply la_move; auto]. Qed.

  Lemma move_wimg I x : la_ok I -> (exists pr, In pr (g_prods g) /\ In x (p_syms pr)) -> set_eq (move g' (wimg I) (w x)) (img (move g I x)).
  Proof using HO Eg Eg' Hfresh.
    intros HI (pr0 & Hp0 & Hx0) p d k. split.
    - intros (d' & -> & [(k0 & Hk & Hr)|(j & y & n & p0 & d0 & k0 & a & b & Hj & -> & -> & _)] & Hs).
      + destruct (HI _ _ _ Hk) as (Lp & _). destruct (sym_bw _ _ _ Hs) as [(_ & y & Hy & Ey)|(j & n & -> & _)]; [|lia].
        destruct (sym_in _ _ _ Hy) as (pr1 & Hp1 & Hx1). pose proof (own_inj _ _ _ _ Hp0 Hx0 Hp1 Hx1 Ey) as <-. exists k0. split; auto. exists d'. auto.
      + exfalso. destruct (sym_bw _ _ _ Hs) as [(L & _)|(j' & n' & E & Hj' & _)]; [lia|]. assert (j' = j) as -> by lia. rewrite Hj in Hj'. injection Hj' as -> _.
        destruct (own_cases x) as [(m & Hm & E' & _)|[C E']].
        * destruct (proj1 (ow_used _ _ _ HO _ _ (nth_error_In _ _ Hj)) m). exact E'.
        * apply C. rewrite <- E'. apply in_map_iff. exists (w x, n). split; auto. eauto using nth_error_In.
    - intros (k0 & (d' & -> & Hk & Hs) & Hr). exists d'. split; auto. split; [left; exists k0; auto|apply sym_fw, Hs].
  Qed.

  (** What follows a token with a rule of its own. *)
  Definition token_set (I : lrset) (j : nat) : lrset := fun p d k => p = N + j /\ d = 1 /\ wimg I (N + j) 0 k.

  Lemma move_token I j x n : la_ok I -> nth_error names j = Some (x, n) -> set_eq (move g' (wimg I) x) (token_set I j).
  Proof using HO Eg Eg' Hfresh.
    intros HI Hj p d k. split.
    - intros (d' & -> & Hk & Hs). destruct (sym_bw _ _ _ Hs) as [(L & y & Hy & Ey)|(j' & n' & -> & Hj' & ->)].
      + exfalso. destruct (own_cases y) as [(m & _ & E & _)|[C E]].
        * rewrite E in Ey. destruct (proj1 (ow_used _ _ _ HO _ _ (nth_error_In _ _ Hj)) m Ey).
        * rewrite E in Ey. subst y. apply C, in_map_iff. exists (x, n). split; auto. eauto using nth_error_In.
      + assert (j' = j) as ->; [|split; auto].
        assert (E : nth_error (map fst names) j' = Some x) by (rewrite nth_error_map, Hj'; reflexivity). assert (E' : nth_error (map fst names) j = Some x) by (rewrite nth_error_map, Hj; reflexivity).
        pose proof (ow_tokens _ _ _ HO) as Hn. rewrite NoDup_nth_error in Hn. apply Hn; [apply nth_error_lt in E; auto|congruence].
    - intros (-> & -> & Hk). exists 0. split; auto. split; auto. eapply sym_new; eauto.
  Qed.
  Lemma token_set_done I j d p k x : j < length names -> token_set I j p d k -> ~ sym_at g' p d x.
  Proof using HO Eg Eg'.
    intros L (-> & -> & _) Hs. destruct (sym_bw _ _ _ Hs) as [(L' & _)|(j' & n & _ & _ & E)]; [lia|discriminate].
  Qed.

  Lemma state_cases J : lr_state g' F' J ->
    (exists I, lr_state g F I /\ set_eq J (wimg I)) \/ (exists I j, lr_state g F I /\ j < length names /\ set_eq J (token_set I j)).
  Proof using HO W W' Eg Eg' Hfresh.
    induction 1 as [|J y HJ IH (p & d & k & Hm)].
    - left. exists (clo g F init_set). split; [constructor|]. apply clo_wimg; [apply la_init|apply img_init].
    - destruct IH as [(I & HI & Hq)|(I & j & HI & L & Hq)].
      + pose proof (la_state _ HI) as HL. pose proof Hm as Hm'. apply (move_eq g' J _ y Hq) in Hm'. destruct Hm' as (d' & -> & Hk & Hs).
        destruct (sym_bw _ _ _ Hs) as [(Lp & x & Hx & ->)|(j & n & -> & Hj & ->)].
        * left. exists (clo g F (move g I x)).
          assert (Q : set_eq (move g' J (w x)) (img (move g I x))).
          { eapply set_eq_trans; [apply move_eq, Hq|]. apply move_wimg; auto. apply (sym_in _ _ _ Hx). }
          split; [|apply clo_wimg; auto using la_move].
          destruct (proj1 (Q _ _ _) Hm) as (k0 & Hk0 & _). constructor 2; eauto.
        * right. exists I, j. split; auto. split; [eauto using nth_error_lt|].
          assert (Q : set_eq (move g' J y) (token_set I j)) by (eapply set_eq_trans; [apply move_eq, Hq|eapply move_token; eauto]).
          intros p d k1. split; [|intros H; apply clo_base, Q, H].
          intros H. induction H as [p d k1 H|p d k1 a q pq b k2 _ IH Hs1 _ _ _ _]; [apply Q, H|].
          destruct (token_set_done I j d p k1 (SNon (p_name pq)) (nth_error_lt _ _ _ Hj) IH Hs1).
      + exfalso. destruct Hm as (d' & -> & Hk & Hs). apply (token_set_done I j d' p k y L); auto. apply Hq, Hk.
  Qed.

  Lemma wimg_core I J : la_ok I -> la_ok J -> same_core (wimg I) (wimg J) -> same_core I J.
  Proof using HO W W' Eg Eg'.
    assert (G : forall I J, la_ok I -> la_ok J -> same_core (wimg I) (wimg J) -> forall p d k, I p d k -> exists k', J p d k').
    { intros I0 J0 HI HJ Hc p d k Hk. destruct (HI _ _ _ Hk) as (Lp & a & Ha & Ta). destruct (lrel_total _ _ Ha Ta) as (k' & Hr).
      destruct (proj1 (Hc p d)) as (k1 & [(k2 & Hk2 & _)|(j & x & n & p0 & d0 & k0 & a0 & b & _ & -> & _)]); [exists k'; left; exists k; auto|eauto|lia]. }
    intros HI HJ Hc p d. split; intros (k & Hk); [exact (G I J HI HJ Hc _ _ _ Hk)|]. assert (Hc' : same_core (wimg J) (wimg I)) by (intros p' d'; symmetry; apply Hc). exact (G J I HJ HI Hc' _ _ _ Hk).
  Qed.
  Lemma wimg_token_core I J j : la_ok I -> (exists p d k, I p d k) -> ~ same_core (wimg I) (token_set J j).
  Proof using HO W W' Eg Eg'.
    intros HI (p & d & k & Hk) Hc. destruct (HI _ _ _ Hk) as (Lp & a & Ha & Ta). destruct (lrel_total _ _ Ha Ta) as (k' & Hr).
    destruct (proj1 (Hc p d)) as (k1 & -> & _); [exists k'; left; exists k; auto|lia].
  Qed.
  Lemma state_item I : lr_state g F I -> exists p d k, I p d k.
  Proof using Type.
    intros [|J x _ (p & d & k & H)]; [exists 0, 0, 0; apply clo_base; repeat split|exists p, d, k; apply clo_base, H].
  Qed.

  (** No new conflicts. *)
  Lemma own_conflict J : lr_state g' F' J -> conflict g' (lalr_of g' F' J) -> exists I, lr_state g F I /\ conflict g (lalr_of g F I).
  Proof using HO W W' Eg Eg' Hfresh.
    intros HJ (p & d & p' & d' & k & Hne & Hc & (J1 & HJ1 & C1 & Hk) & H2).
    destruct (state_cases _ HJ) as [(I & HI & Hq)|(I & j & HI & L & Hq)].
    - pose proof (la_state _ HI) as HL.
      assert (G : forall J1, lr_state g' F' J1 -> same_core J J1 -> exists I1, lr_state g F I1 /\ same_core I I1 /\ set_eq J1 (wimg I1)).
      { intros J0 HJ0 C0. destruct (state_cases _ HJ0) as [(I1 & HI1 & Hq1)|(I1 & j & HI1 & _ & Hq1)].
        - exists I1. split; auto. split; auto. apply wimg_core; auto using la_state.
          apply (same_core_eq _ _ _ Hq), (same_core_eq_r _ _ _ Hq1) in C0. exact C0.
        - exfalso. apply (wimg_token_core I I1 j HL (state_item _ HI)). apply (same_core_eq _ _ _ Hq), (same_core_eq_r _ _ _ Hq1) in C0. exact C0. }
      destruct (G _ HJ1 C1) as (I1 & HI1 & D1 & Q1). apply Q1 in Hk.
      destruct (complete_bw _ _ Hc) as [(Hc0 & Lp)|(j & -> & -> & _)].
      2:{ exfalso. destruct Hk as [(k0 & Hk & _)|(j' & x & n & p0 & d0 & k0 & a & b & _ & _ & C & _)]; [apply (la_state _ HI1) in Hk; lia|discriminate]. }
      destruct Hk as [(k1 & Hk1 & (a & Ha & T1 & T2))|(j' & x & n & p0 & d0 & k0 & a & b & _ & -> & _)]; [|lia].
      exists I. split; auto. destruct H2 as [[Hc' (J2 & HJ2 & C2 & Hk2)]|(x & k2 & Hs & Hx & Tx & (J2 & HJ2 & C2 & Hk2))].
      + destruct (G _ HJ2 C2) as (I2 & HI2 & D2 & Q2). apply Q2 in Hk2. destruct (complete_bw _ _ Hc') as [(Hc1 & Lp')|(j & -> & -> & _)].
        2:{ exfalso. destruct Hk2 as [(k0 & Hk & _)|(j' & x & n & p0 & d0 & k0 & a0 & b & _ & _ & C & _)]; [apply (la_state _ HI2) in Hk; lia|discriminate]. }
        destruct Hk2 as [(k2 & Hk2 & (a2 & _ & T3 & T4))|(j' & x & n & p0 & d0 & k0 & a0 & b & _ & -> & _)]; [|lia].
        pose proof (tok_one _ _ _ _ T2 T4) as <-. pose proof (tok_first _ _ _ _ T1 T3) as <-.
        exists p, d, p', d', k1. split; auto. split; auto. split; [exists I1; auto|]. left. split; auto. exists I2. auto.
      + destruct (G _ HJ2 C2) as (I2 & HI2 & D2 & Q2). apply Q2 in Hk2. pose proof (tok_one _ _ _ _ T2 Tx) as ->.
        assert (NC : forall q e, sym_at g q e x -> (p, d) <> (q, e)).
        { intros q e (pr & Hp & Hd) E. injection E as <- <-. destruct Hc0 as (pr' & Hp' & ->). rewrite Hp in Hp'. injection Hp' as <-. apply nth_error_lt in Hd. lia. }
        destruct Hk2 as [(k3 & Hk3 & _)|(j & y & n & p0 & d0 & k0 & a0 & b & Hj & -> & -> & Hk0 & Hs0 & _)].
        * destruct (sym_bw _ _ _ Hs) as [(_ & y & Hy & Ey)|(j & n & -> & _)]; [|apply (la_state _ HI2) in Hk3; lia].
          assert (y = x) as ->.
          { destruct (own_cases y) as [(m & _ & E & _)|[_ E]]; [rewrite E in Ey; destruct (Hx m Ey)|congruence]. }
          exists p, d, p', d', k1. split; auto. split; auto. split; [exists I1; auto|]. right. exists x, k3. split; auto. split; auto. split; auto. exists I2. auto.
        * destruct (sym_bw _ _ _ Hs) as [(Lp' & _)|(j' & n' & E & Hj' & _)]; [lia|]. assert (j' = j) as -> by lia. rewrite Hj in Hj'. injection Hj' as -> _.
          exists p, d, p0, d0, k1. split; auto. split; auto. split; [exists I1; auto|]. right. exists x, k0. split; auto. split; auto. split; auto. exists I2. auto.
    - exfalso.
      assert (G : forall p d k, lalr_of g' F' J p d k -> (p, d) = (N + j, 1)).
      { intros p0 d0 k0 (J0 & HJ0 & C0 & Hk0). apply (same_core_eq _ _ _ Hq) in C0. destruct (proj2 (C0 p0 d0)) as (k2 & -> & -> & _); eauto. }
      assert (E1 : (p, d) = (N + j, 1)) by (apply (G p d k); exists J1; auto).
      destruct H2 as [[_ H2]|(x & k2 & _ & _ & _ & H2)]; apply G in H2; congruence.
  Qed.

  Lemma own_one_place : others_once names g -> forall p d p' d' x, terminal x -> sym_at g' p d x -> sym_at g' p' d' x -> (p, d) = (p', d').
  Proof using HO Eg Eg'.
    intros Ho p d p' d' x Hx H1 H2.
    assert (B : forall y, x = w y -> y = x /\ ~ In x (map fst names)).
    { intros y E. destruct (own_cases y) as [(n & _ & E' & _)|[C E']]; [rewrite E' in E; destruct (Hx n E)|]. rewrite E' in E. subst y. auto. }
    destruct (sym_bw _ _ _ H1) as [(L & y & Hy & Ey)|(j & n & -> & Hj & ->)], (sym_bw _ _ _ H2) as [(L' & y' & Hy' & Ey')|(j' & n' & -> & Hj' & ->)].
    - destruct (B _ Ey) as [-> C], (B _ Ey') as [-> _]. eapply Ho; eauto.
    - exfalso. destruct (B _ Ey) as [-> C]. apply C, in_map_iff. exists (x, n'). split; auto. eauto using nth_error_In.
    - exfalso. destruct (B _ Ey') as [-> C]. apply C, in_map_iff. exists (x, n). split; auto. eauto using nth_error_In.
    - f_equal. f_equal.
      assert (E : nth_error (map fst names) j' = Some x) by (rewrite nth_error_map, Hj'; reflexivity). assert (E' : nth_error (map fst names) j = Some x) by (rewrite nth_error_map, Hj; reflexivity).
      pose proof (ow_tokens _ _ _ HO) as Hn. rewrite NoDup_nth_error in Hn. apply Hn; [apply nth_error_lt in E'; auto|congruence].
  Qed.

  Lemma own_eps_free : eps_free g'.
  Proof using HO Eg Eg' He.
    intros q Hq. apply In_nth_error in Hq as [i Hi]. destruct (bw_prod _ _ Hi) as [(pr & Hp & _ & _ & E)|(j & x & n & _ & Hj & _ & E)]; rewrite E.
    - destruct (He pr (nth_error_In _ _ Hp)) as [H1 H2]. split; [destruct (p_syms pr); [congruence|discriminate]|].
      intros C. apply in_map_iff in C as (x & Ex & Hx). destruct (own_cases x) as [(n & _ & E' & _)|[_ E']]; rewrite E' in Ex; [discriminate|subst x; auto].
    - split; [discriminate|]. intros [->|[]]. destruct (proj2 (ow_used _ _ _ HO _ _ (nth_error_In _ _ Hj))) as (A & b & Hr & Hx).
      assert (Hi' : In (A, b) (map shape (g_prods g))) by (rewrite Eg; right; exact Hr). apply in_map_iff in Hi' as (pr & Es & Hp). unfold shape in Es. injection Es as _ <-.
      destruct (He pr Hp) as [_ C]. auto.
  Qed.

  (** Building the item sets. *)
  Lemma lms_bw y z : lms g' y z -> forall x, wrel1 y x -> (exists z0, wrel1 z z0 /\ lms g x z0).
  Proof using HO Eg Eg' Hfresh.
    induction 1 as [y|A y b z Hr _ IH]; intros x Hx; [exists x; split; auto; constructor|].
    destruct (rule_bw _ _ Hr) as [(b0 & Hr0 & Eb & Hn)|(t & Ht & Eb)].
    - destruct Hx as [[<- _]|(n & Hn' & E)]; [|injection E as ->; destruct Hn; eapply in_names_snd; eauto].
      destruct b0 as [|y0 b0]; [discriminate|]. cbn [map] in Eb. injection Eb as -> ->. pose proof Hr0 as (p & Hp & _ & Ep).
      assert (R : wrel1 (w y0) y0). { apply (wrel1_own p); auto. rewrite Ep. left. reflexivity. }
      destruct (IH _ R) as (z0 & Hz & Hl). exists z0. split; auto. econstructor; eauto.
    - injection Eb as -> ->. destruct Hx as [[<- C]|(n & Hn' & E)]; [destruct (C A eq_refl); eapply in_names_snd; eauto|]. injection E as <-.
      pose proof (name_one _ _ _ Ht Hn') as ->. apply IH. left. split; auto. intros m ->. destruct (proj1 (ow_used _ _ _ HO _ _ Ht) m eq_refl).
  Qed.
  Lemma reach_bw p : reachable g' p -> p < N -> reachable g p.
  Proof using HO W Eg Eg' Hfresh.
    induction 1 as [|p pr' q pq' _ IH Hp Hin Hq]; intros L; [constructor|].
    destruct (bw_prod _ _ Hq) as [(pq & Hq0 & _ & En & _)|(j & x & n & -> & _)]; [|lia].
    destruct (bw_prod _ _ Hp) as [(pr & Hp0 & Lp & _ & E)|(j & x & n & -> & Hj & _ & E)]; rewrite E in Hin.
    - apply in_map_iff in Hin as (x & Ex & Hx). destruct (own_back pr x _ (nth_error_In _ _ Hp0) Hx Ex) as [[-> _]|Hn].
      + rewrite En in Hx. eapply reach_next; eauto.
      + destruct (prod_name pq (nth_error_In _ _ Hq0)). rewrite <- En. eapply in_names_snd; eauto.
    - exfalso. destruct Hin as [Hin|[]]. destruct (proj1 (ow_used _ _ _ HO _ _ (nth_error_In _ _ Hj)) _ Hin).
  Qed.
  Lemma own_items : own_computable names g -> exists C, items g' = Ok C.
  Proof using HO W W' Eg Eg' Hfresh He.
    intros Hc. pose proof own_eps_free as He'. apply (items_ok_iff g' _ W' He'). intros p pr' d B Hr Hp Hd.
    destruct (bw_prod _ _ Hp) as [(pr & Hp0 & L & _ & E)|(j & x & n & -> & Hj & _ & E)]; rewrite E in Hd.
    2:{ exfalso. destruct d as [|[|d]]; [injection Hd as Hd|discriminate|discriminate]. destruct (proj1 (ow_used _ _ _ HO _ _ (nth_error_In _ _ Hj)) _ Hd). }
    rewrite nth_error_map in Hd. destruct (nth_error (p_syms pr) d) as [x|] eqn:Ex; [|discriminate]. injection Hd as Hd.
    destruct (Hc p pr d x (reach_bw _ Hr L) Hp0 Ex) as [H1 H2].
    assert (HR : forall A, has_rule g A -> has_rule g' A).
    { intros A (q & Hq & En). apply In_nth_error in Hq as [i Hi]. destruct (fw_prod _ _ Hi) as (q' & Hq' & En' & _). exists q'. split; [eauto using nth_error_In|congruence]. }
    assert (HN : forall t n, In (t, n) names -> has_rule g' n) by (intros t n Hn; destruct (rule_new _ _ Hn) as (q & Hq & En & _); exists q; auto).
    destruct (own_back pr x B (nth_error_In _ _ Hp0) (nth_error_In _ _ Ex) Hd) as [[-> _]|Hn].
    - split; [apply HR; auto|]. intros y' Hy A Hl. rewrite E, nth_error_map in Hy. destruct (nth_error (p_syms pr) (S d)) as [y|] eqn:Ey; [|discriminate]. injection Hy as <-.
      revert A Hl. enough (G : forall A, lms g' (w y) (SNon A) -> has_rule g' A /\ ~ left_recursive g' A) by exact G.
      intros A Hl.
      assert (Ry : wrel1 (w y) y). { apply (wrel1_own pr); eauto using nth_error_In. }
      destruct (lms_bw _ _ Hl _ Ry) as (z & Hz & Hlz). destruct Hz as [[<- HnA]|(m & Hm & Em)].
      + destruct (lms_derives _ _ _ Hlz) as (b & Hb). destruct (H2 (or_introl (ex_intro _ B eq_refl)) y eq_refl A b Hb) as [G1 G2]. split; [auto|].
        intros HL. apply G2. apply (left_recursive_lms g' He') in HL as (y1 & b1 & Hr1 & Hl1).
        destruct (rule_bw _ _ Hr1) as [(b0 & Hr0 & Eb & _)|(t & Ht & _)]; [|destruct (HnA A eq_refl); eapply in_names_snd; eauto].
        destruct b0 as [|y0 b0]; [discriminate|]. injection Eb as -> ->. pose proof Hr0 as (q & Hq & _ & Eq).
        assert (R0 : wrel1 (w y0) y0). { apply (wrel1_own q); auto. rewrite Eq. left. reflexivity. }
        destruct (lms_bw _ _ Hl1 _ R0) as (z & Hz & Hlz'). destruct Hz as [[<- _]|(m & Hm & Em)]; [|injection Em as <-; destruct (HnA A eq_refl); eapply in_names_snd; eauto].
        apply (left_recursive_lms g He). exists y0, b0. auto.
      + injection Em as <-. split; [eauto|]. intros HL. apply (left_recursive_lms g' He') in HL as (y1 & b1 & Hr1 & Hl1).
        destruct (rule_bw _ _ Hr1) as [(b0 & _ & _ & C)|(t & Ht & Eb)]; [destruct C; eapply in_names_snd; eauto|]. injection Eb as -> ->.
        inversion Hl1; subst. { destruct (proj1 (ow_used _ _ _ HO _ _ Ht) A eq_refl). } { destruct (proj1 (ow_used _ _ _ HO _ _ Ht) _ eq_refl). }
    - split; [eauto|]. intros y' Hy A Hl. rewrite E, nth_error_map in Hy. destruct (nth_error (p_syms pr) (S d)) as [y|] eqn:Ey; [|discriminate]. injection Hy as <-.
      assert (Ry : wrel1 (w y) y). { apply (wrel1_own pr); eauto using nth_error_In. }
      destruct (lms_bw _ _ Hl _ Ry) as (z & Hz & Hlz). destruct Hz as [[<- HnA]|(m & Hm & Em)].
      + destruct (lms_derives _ _ _ Hlz) as (b & Hb). destruct (H2 (or_intror (in_map fst _ _ Hn)) y eq_refl A b Hb) as [G1 G2]. split; [auto|].
        intros HL. apply G2. apply (left_recursive_lms g' He') in HL as (y1 & b1 & Hr1 & Hl1).
        destruct (rule_bw _ _ Hr1) as [(b0 & Hr0 & Eb & _)|(t & Ht & _)]; [|destruct (HnA A eq_refl); eapply in_names_snd; eauto].
        destruct b0 as [|y0 b0]; [discriminate|]. injection Eb as -> ->. pose proof Hr0 as (q & Hq & _ & Eq).
        assert (R0 : wrel1 (w y0) y0). { apply (wrel1_own q); auto. rewrite Eq. left. reflexivity. }
        destruct (lms_bw _ _ Hl1 _ R0) as (z & Hz & Hlz'). destruct Hz as [[<- _]|(m & Hm & Em)]; [|injection Em as <-; destruct (HnA A eq_refl); eapply in_names_snd; eauto].
        apply (left_recursive_lms g He). exists y0, b0. auto.
      + injection Em as <-. split; [eauto|]. intros HL. apply (left_recursive_lms g' He') in HL as (y1 & b1 & Hr1 & Hl1).
        destruct (rule_bw _ _ Hr1) as [(b0 & _ & _ & C)|(t & Ht & Eb)]; [destruct C; eapply in_names_snd; eauto|]. injection Eb as -> ->.
        inversion Hl1; subst. { destruct (proj1 (ow_used _ _ _ HO _ _ Ht) A eq_refl). } { destruct (proj1 (ow_used _ _ _ HO _ _ Ht) _ eq_refl). }
  Qed.

  Lemma own_eof_free : eof_free g -> eof_free g'.
  Proof using HO Eg Eg'.
    intros Hf q Hq. apply In_nth_error in Hq as [i Hi]. destruct (bw_prod _ _ Hi) as [(pr & Hp & _ & _ & E)|(j & x & n & _ & Hj & _ & E)]; rewrite E.
    - intros C. apply in_map_iff in C as (x & Ex & Hx). destruct (own_cases x) as [(n & _ & E' & _)|[_ E']]; rewrite E' in Ex; [discriminate|subst x]. apply (Hf pr (nth_error_In _ _ Hp) Hx).
    - intros [->|[]]. destruct (proj2 (ow_used _ _ _ HO _ _ (nth_error_In _ _ Hj))) as (A & b & Hr & Hx).
      assert (Hi' : In (A, b) (map shape (g_prods g))) by (rewrite Eg; right; exact Hr). apply in_map_iff in Hi' as (pr & Es & Hp). unfold shape in Es. injection Es as _ <-.
      apply (Hf pr Hp Hx).
  Qed.
  Lemma own_start_fresh : g_start g = aug_name start -> g_start g' = aug_name start -> start_fresh g -> start_fresh g'.
  Proof using HO Eg Eg' Hfresh.
    intros Hs Hs' Hf q Hq Hin. rewrite Hs' in Hin. apply In_nth_error in Hq as [i Hi]. destruct (bw_prod _ _ Hi) as [(pr & Hp & _ & _ & E)|(j & x & n & _ & Hj & _ & E)]; rewrite E in Hin.
    - apply in_map_iff in Hin as (x & Ex & Hx). destruct (own_back pr x _ (nth_error_In _ _ Hp) Hx Ex) as [[-> _]|Hn].
      + apply (Hf pr (nth_error_In _ _ Hp)). rewrite Hs. exact Hx.
      + apply (Hfresh _ (in_names_snd _ _ Hn)). left. reflexivity.
    - destruct Hin as [Hin|[]]. destruct (proj1 (ow_used _ _ _ HO _ _ (nth_error_In _ _ Hj)) _ Hin).
  Qed.
  Lemma own_lex_syms : lex_syms g' = lex_syms g.
  Proof using HO W W' Eg Eg'.
    destruct (wg_tokens _ _ W) as (l & El & Hs & _), (wg_tokens _ _ W') as (l' & El' & Hs' & _). unfold lex_syms.
    assert (B : forall x, In x (filter lexical (g_tokens g')) <-> In x (filter lexical (g_tokens g))).
    { intros x. rewrite !filter_In. split; intros [H1 H2]; (split; [|exact H2]); [apply token_bw|apply token_fw]; auto; intros n ->; discriminate H2. }
    rewrite El, El' in *. cbn [filter lexical] in *. apply ssorted_ext; auto; apply ssorted_filter; auto.
  Qed.

  (** Trees. *)
  Fixpoint collapse (tr : tree) : tree :=
    match tr with
    | Leaf x => Leaf x
    | Node p ts => if p <? N then Node p (map collapse ts) else match ts with [u] => u | _ => Node p ts end
    end.
  Lemma collapse_ok tr : forall x, tree_ok g' tr -> (exists y, root g' tr = Some y /\ wrel1 y x) ->
    tree_ok g (collapse tr) /\ root g (collapse tr) = Some x /\ yield (collapse tr) = yield tr /\ postorder (collapse tr) = old_rules g (postorder tr).
  Proof using HO Eg Eg' Hfresh.
    induction tr as [t|p ts IH] using tree_ind'; intros x Ho (y & Hy & Hw).
    - injection Hy as <-. apply tree_ok_leaf in Ho. assert (x = t) as -> by (destruct Hw as [[-> _]|(n & _ & ->)]; auto; destruct (Ho n eq_refl)).
      repeat split. constructor. exact Ho.
    - apply tree_ok_node in Ho as (pr' & Hp & Hts & Hm). cbn [root] in Hy. rewrite Hp in Hy. injection Hy as <-. cbn [collapse].
      destruct (bw_prod _ _ Hp) as [(pr & Hp0 & L & En & E)|(j & t & n & -> & Hj & En & E)].
      + assert (L' : p <? N = true) by (apply Nat.ltb_lt; exact L). rewrite L'. rewrite E in Hm.
        assert (x = SNon (p_name pr)) as ->.
        { rewrite En in Hw. destruct Hw as [[-> _]|(n & Hn & Ex)]; auto. injection Ex as <-. destruct (prod_name pr (nth_error_In _ _ Hp0)). eapply in_names_snd; eauto. }
        assert (G : Forall (tree_ok g) (map collapse ts) /\ map (root g) (map collapse ts) = map Some (p_syms pr) /\
          flat_map yield (map collapse ts) = flat_map yield ts /\ flat_map postorder (map collapse ts) = old_rules g (flat_map postorder ts)).
        { assert (Hin : incl (p_syms pr) (p_syms pr)) by apply incl_refl. revert Hin Hm. generalize (p_syms pr) at 1 3 4 as l.
          clear Hp Hw. induction ts as [|tr ts IHl]; intros [|z l] Hin Hm; try discriminate Hm; [repeat split; constructor|]. cbn [map] in Hm. injection Hm as Hz Hm.
          inversion IH as [|? ? I1 I2]; inversion Hts as [|? ? O1 O2]; subst.
          destruct (I1 z O1) as (A1 & A2 & A3 & A4); [exists (w z); split; auto; apply (wrel1_own pr); eauto using nth_error_In; apply Hin; left; reflexivity|].
          destruct (IHl I2 O2 l) as (B1 & B2 & B3 & B4); [intros u Hu; apply Hin; right; exact Hu|exact Hm|].
          cbn [map flat_map]. split; [constructor; auto|]. split; [congruence|]. split; [congruence|]. unfold old_rules in *. rewrite filter_app. congruence. }
        destruct G as (G1 & G2 & G3 & G4). split; [econstructor; eauto|]. cbn [root yield postorder]. rewrite Hp0. split; auto. split; auto.
        unfold old_rules in *. rewrite filter_app, G4. cbn [filter]. fold N. rewrite L'. reflexivity.
      + assert (L' : N + j <? N = false) by (apply Nat.ltb_ge; lia). rewrite L'. rewrite E in Hm. pose proof (proj1 (ow_used _ _ _ HO _ _ (nth_error_In _ _ Hj))) as Ht.
        destruct ts as [|u [|? ?]]; try discriminate Hm. injection Hm as Hu. inversion Hts as [|? ? O1 _]; subst.
        assert (u = Leaf t) as ->.
        { destruct u as [v|q us]; [injection Hu as ->; auto|]. apply tree_ok_node in O1 as (pq & Hq & _). cbn [root] in Hu. rewrite Hq in Hu. injection Hu as Hu. destruct (Ht _ (eq_sym Hu)). }
        assert (x = t) as ->.
        { destruct Hw as [[<- C]|(m & Hn & Em)]; [destruct (C _ eq_refl); eapply in_names_snd, nth_error_In, Hj|]. injection Em as <-. symmetry. eapply name_one; eauto using nth_error_In. }
        split; [constructor; auto|]. split; auto. split; auto. cbn [postorder flat_map app old_rules filter]. fold N. rewrite L'. reflexivity.
  Qed.
  Lemma expand_ok tr : forall x y, tree_ok g tr -> root g tr = Some x -> wrel1 y x ->
    exists tr', tree_ok g' tr' /\ root g' tr' = Some y /\ yield tr' = yield tr /\ old_rules g (postorder tr') = postorder tr.
  Proof using HO Eg Eg' Hfresh.
    induction tr as [t|p ts IH] using tree_ind'; intros x y Ho Hx Hw.
    - injection Hx as <-. apply tree_ok_leaf in Ho. destruct Hw as [[-> _]|(n & Hn & ->)]; [exists (Leaf t); repeat split; constructor; auto|].
      apply In_nth_error in Hn as [j Hj]. destruct (new_prod _ _ _ Hj) as (q & Hq & En & E). exists (Node (N + j) [Leaf t]).
      assert (L' : N + j <? N = false) by (apply Nat.ltb_ge; lia).
      split; [econstructor; [exact Hq|repeat constructor; auto|rewrite E; reflexivity]|]. cbn [root yield postorder flat_map app]. rewrite Hq, En. split; auto. split; auto. cbn [old_rules filter]. fold N. rewrite L'. reflexivity.
    - apply tree_ok_node in Ho as (pr & Hp & Hts & Hm). cbn [root] in Hx. rewrite Hp in Hx. injection Hx as <-.
      assert (y = SNon (p_name pr)) as -> by (destruct Hw as [[-> _]|(n & Hn & _)]; auto; destruct (proj1 (ow_used _ _ _ HO _ _ Hn) _ eq_refl)).
      destruct (fw_prod _ _ Hp) as (q & Hq & En & E).
      assert (G : exists ts', Forall (tree_ok g') ts' /\ map (root g') ts' = map Some (map w (p_syms pr)) /\ flat_map yield ts' = flat_map yield ts /\ old_rules g (flat_map postorder ts') = flat_map postorder ts).
      { assert (Hin : incl (p_syms pr) (p_syms pr)) by apply incl_refl. revert Hin Hm. generalize (p_syms pr) at 1 3 4 as l.
        clear Hw. induction ts as [|tr ts IHl]; intros [|z l] Hin Hm; try discriminate Hm; [exists []; repeat split; constructor|]. cbn [map] in Hm. injection Hm as Hz Hm.
        inversion IH as [|? ? I1 I2]; inversion Hts as [|? ? O1 O2]; subst.
        destruct (I1 z (w z) O1 Hz) as (tr' & A1 & A2 & A3 & A4); [apply (wrel1_own pr); eauto using nth_error_In; apply Hin; left; reflexivity|].
        destruct (IHl I2 O2 l) as (ts' & B1 & B2 & B3 & B4); [intros u Hu; apply Hin; right; exact Hu|exact Hm|].
        exists (tr' :: ts'). cbn [map flat_map]. split; [constructor; auto|]. split; [congruence|]. split; [congruence|]. unfold old_rules in *. rewrite filter_app. congruence. }
      destruct G as (ts' & G1 & G2 & G3 & G4). exists (Node p ts'). split; [econstructor; eauto; congruence|]. cbn [root yield postorder]. rewrite Hq, En. split; auto. split; auto.
      assert (L' : p <? N = true) by (apply Nat.ltb_lt; unfold N; eauto using nth_error_lt).
      unfold old_rules in *. rewrite filter_app, G4. cbn [filter]. fold N. rewrite L'. reflexivity.
  Qed.
End Own.
