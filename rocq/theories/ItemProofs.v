(** Proofs about item sets: closure, goto and the canonical collection. *)
From Verif Require Import Base Grammar GrammarSpec GrammarProofs First FirstProofs Item ItemSpec LexNfa LexProofs.

Lemma mapM_In {A B} (f : A -> res B) l r : mapM f l = Ok r ->
  forall b, In b r <-> exists a, In a l /\ f a = Ok b.
Proof.
  intros H. apply mapM_Forall2 in H. intros b. induction H as [|a b' l r Hab HF IH].
  - split; [intros []|intros (a & [] & _)].
  - simpl. rewrite IH. split.
    + intros [<-|(a' & Ha & E)]; eauto.
    + intros (a' & [<-|Ha] & E); [left; congruence|eauto].
Qed.
Lemma mapM_ok_inv {A B} (f : A -> res B) l r : mapM f l = Ok r -> forall a, In a l -> exists b, f a = Ok b.
Proof.
  intros H. apply mapM_Forall2 in H. induction H as [|a b l r Hab HF IH]; intros x Hx; [destruct Hx|destruct Hx as [<-|Hx]; eauto].
Qed.
Lemma bind_div {A B} (r : res A) (f : A -> res B) : bind r f = Diverge ->
  r = Diverge \/ exists a, r = Ok a /\ f a = Diverge.
Proof. destruct r; simpl; eauto; discriminate. Qed.
Lemma mapM_div {A B} (f : A -> res B) l : mapM f l = Diverge -> exists a, In a l /\ f a = Diverge.
Proof.
  induction l as [|a l IH]; simpl; [discriminate|]. intros H. apply bind_div in H as [H|(b & _ & H)]; eauto.
  apply bind_div in H as [H|(r & _ & H)]; [|discriminate]. destruct (IH H) as (x & Hx & E). eauto.
Qed.
Lemma mapM_ok_iff {A B} (f : A -> res B) l : (exists r, mapM f l = Ok r) <-> forall a, In a l -> exists b, f a = Ok b.
Proof.
  split; [|apply mapM_ok]. intros [r H]. eapply mapM_ok_inv; eauto.
Qed.

Lemma tok_idx g x k : get_token_idx g x = Some k <-> tok g k x.
Proof.
  unfold get_token_idx, tok. split.
  - intros E. apply find_index_some in E as ((y & Hy & Ey) & Hmin). apply eqb_eq in Ey; subst y.
    split; [exact Hy|]. intros j Hj C. pose proof (Hmin _ _ Hj C) as Hf. simpl in Hf.
    rewrite eqb_refl in Hf. discriminate.
  - intros [Hk Hmin]. destruct (find_index _ _) as [j|] eqn:E.
    + apply find_index_some in E as ((y & Hy & Ey) & Hm). apply eqb_eq in Ey; subst y.
      f_equal. destruct (Nat.lt_trichotomy j k) as [H|[H|H]]; auto; exfalso.
      * exact (Hmin _ H Hy).
      * pose proof (Hm _ _ H Hk) as Hf. simpl in Hf. rewrite eqb_refl in Hf. discriminate.
    + exfalso. pose proof (proj1 (find_index_none _ _) E x (nth_error_In _ _ Hk)) as Hf.
      simpl in Hf. rewrite eqb_refl in Hf. discriminate.
Qed.

Lemma tok_unique g x k k' : tok g k x -> tok g k' x -> k = k'.
Proof. rewrite <- !tok_idx. congruence. Qed.

(** ** Item sets *)

Lemma is_mem_has s p d k : msorted s -> is_mem s (p, d) k = true <-> has s p d k.
Proof.
  intros Hs. unfold is_mem, has. destruct (map_get (p, d) s) as [las|] eqn:E.
  - rewrite set_mem_In. split.
    + intros H. exists las. split; [apply map_get_In, E|exact H].
    + intros (las' & Hin & Hk). apply In_map_get in Hin; auto. congruence.
  - split; [discriminate|]. intros (las & Hin & _). apply In_map_get in Hin; auto. congruence.
Qed.

Lemma is_insert_mem s it k it' k' : msorted s ->
  is_mem (is_insert s it k) it' k' = true <-> (it' = it /\ k' = k) \/ is_mem s it' k' = true.
Proof.
  intros Hs. unfold is_mem, is_insert. destruct (ord_dec it' it) as [->|Hne].
  - rewrite map_get_alter_same by exact Hs. rewrite set_mem_In. destruct (map_get it s) as [las|].
    + rewrite set_insert_In, set_mem_In. intuition auto.
    + simpl. intuition (try discriminate; subst; auto).
  - rewrite map_get_alter_other by exact Hne. intuition auto.
Qed.

Lemma is_insert_wf s it k : wf_set s -> wf_set (is_insert s it k).
Proof.
  intros [Hs Hl]. unfold is_insert. pose proof (map_alter_sorted it
    (fun o => match o with None => [k] | Some las => set_insert k las end) s Hs) as Hs'.
  split; [exact Hs'|]. intros it' las Hin. apply In_map_get in Hin; [|exact Hs'].
  destruct (ord_dec it' it) as [->|Hne].
  - rewrite map_get_alter_same in Hin by exact Hs. injection Hin as <-.
    destruct (map_get it s) as [las|] eqn:E.
    + apply map_get_In in E. destruct (Hl _ _ E) as [H1 H2]. split; [apply set_insert_sorted, H1|].
      intros C. assert (In k []) as []. rewrite <- C. apply set_insert_In. auto.
    + split; [|discriminate]. simpl. split; [intros y []|exact I].
  - rewrite map_get_alter_other in Hin by exact Hne. apply map_get_In in Hin. eauto.
Qed.

Lemma wf_set_ext s t : wf_set s -> wf_set t -> (forall p d k, has s p d k <-> has t p d k) -> s = t.
Proof.
  intros Hs Ht H. apply msorted_ext; [apply Hs|apply Ht|].
  assert (G : forall s t, wf_set s -> wf_set t -> (forall p d k, has s p d k -> has t p d k) ->
     forall it las, map_get it s = Some las -> exists las', map_get it t = Some las' /\ incl las las').
  { clear. intros s t [Hs Hs'] [Ht Ht'] H [p d] las E. apply map_get_In in E.
    assert (forall k, In k las -> exists las', map_get (p, d) t = Some las' /\ In k las').
    { intros k Hk. destruct (H p d k) as (las' & Hin & Hk'); [exists las; auto|].
      exists las'. split; auto. apply In_map_get; auto. }
    destruct (Hs' _ _ E) as [_ Hne]. destruct las as [|k las]; [tauto|].
    destruct (H0 k (or_introl eq_refl)) as (las' & E' & _). exists las'. split; auto.
    intros x Hx. destruct (H0 x Hx) as (l & El & Hl). congruence. }
  intros it.
  assert (G1 := G s t Hs Ht (fun p d k => proj1 (H p d k)) it).
  assert (G2 := G t s Ht Hs (fun p d k => proj2 (H p d k)) it).
  destruct (map_get it s) as [l1|] eqn:E1; destruct (map_get it t) as [l2|] eqn:E2; auto.
  - destruct (G1 _ eq_refl) as (l & El & I1). injection El as <-.
    destruct (G2 _ eq_refl) as (l & El & I2). injection El as <-. f_equal.
    apply map_get_In in E1. apply map_get_In in E2.
    apply ssorted_ext; [apply (proj2 Hs _ _ E1)|apply (proj2 Ht _ _ E2)|]. intros x; split; auto.
  - destruct (G1 _ eq_refl) as (l & El & _). discriminate.
  - destruct (G2 _ eq_refl) as (l & El & _). discriminate.
Qed.

Lemma wf_set_nil : wf_set [].
Proof. split; [exact I|intros it las []]. Qed.

Lemma has_nil p d k : ~ has [] p d k.
Proof. intros (las & [] & _). Qed.

Lemma wf_set_nonempty s : wf_set s -> s <> [] <-> exists p d k, has s p d k.
Proof.
  intros [Hs Hl]. split.
  - destruct s as [|[[p d] las] s]; [tauto|]. intros _.
    destruct (Hl _ _ (or_introl eq_refl)) as [_ Hne]. destruct las as [|k las]; [tauto|].
    exists p, d, k. exists (k :: las). split; left; reflexivity.
  - intros (p & d & k & H) ->. exact (has_nil _ _ _ H).
Qed.

Lemma represents_ext s t I : wf_set s -> wf_set t -> represents s I -> represents t I -> s = t.
Proof. intros Hs Ht H1 H2. apply wf_set_ext; auto. intros p d k. rewrite (H1 p d k), (H2 p d k). reflexivity. Qed.

(** ** Closure *)

Section Closure.
  Variables (g : grammar) (start : str).
  Hypothesis W : wf_grammar g start.

  Lemma dot_token_some p d pr : nth_error (g_prods g) p = Some pr ->
    dot_token g (p, d) = Ok (nth_error (p_syms pr) d).
  Proof. unfold dot_token, get_production. simpl. intros ->. reflexivity. Qed.

  Lemma dot_token_ok p d o : dot_token g (p, d) = Ok o <->
    exists pr, nth_error (g_prods g) p = Some pr /\ o = nth_error (p_syms pr) d.
  Proof.
    unfold dot_token, get_production. simpl. destruct (nth_error (g_prods g) p) as [pr|].
    - split; [intros E; injection E as <-; eauto|intros (pr' & E & ->); injection E as <-; reflexivity].
    - split; [discriminate|intros (pr' & E & _); discriminate].
  Qed.

  Lemma dot_token_sym_at p d x : dot_token g (p, d) = Ok (Some x) <-> sym_at g p d x.
  Proof.
    rewrite dot_token_ok. unfold sym_at. split; intros (pr & H1 & H2); eauto.
  Qed.

  Lemma dot_name p d o : dot_production_name g (p, d) = Ok o <->
    exists pr, nth_error (g_prods g) p = Some pr /\
      o = match nth_error (p_syms pr) d with Some x => as_non x | None => None end.
  Proof.
    unfold dot_production_name. split.
    - intros H. apply bind_ok in H as (o' & E & H). injection H as <-.
      apply dot_token_ok in E as (pr & Hp & ->). eauto.
    - intros (pr & Hp & ->). rewrite (dot_token_some _ _ _ Hp). reflexivity.
  Qed.

  (** One addition. *)
  Definition adds1 (p d k q k' : nat) : Prop :=
    exists pq a b, sym_at g p d (SNon (p_name pq)) /\ nth_error (g_prods g) q = Some pq /\
      nth_error (g_tokens g) k = Some a /\ F_code g (rest g p (S d) ++ [a]) b /\ tok g k' b.

  Lemma item_iter_rest p d : item_iter g (increment (p, d)) = rest g p (S d).
  Proof. reflexivity. Qed.

  Lemma additions_la_ok p d q k l : additions_la g (p, d) q k = Ok l ->
    forall it k', In (it, k') l <-> it = (q, 0) /\ exists a b, nth_error (g_tokens g) k = Some a /\
      F_code g (rest g p (S d) ++ [a]) b /\ tok g k' b.
  Proof.
    unfold additions_la, get_token. destruct (nth_error (g_tokens g) k) as [a|] eqn:Ea; [|discriminate].
    rewrite item_iter_rest. intros H. apply bind_ok in H as (ts & Ef & H).
    intros it k'. rewrite (mapM_In _ _ _ H). split.
    - intros (t & Ht & E). destruct (get_token_idx g t) as [j|] eqn:Ej; [|discriminate]. injection E as <- <-.
      split; [reflexivity|]. exists a, t. split; [reflexivity|]. split; [exists ts; auto|apply tok_idx, Ej].
    - intros [-> (a' & b & E & (ts' & Ef' & Hb) & Hk)]. injection E as <-.
      rewrite Ef in Ef'. injection Ef' as <-. exists b. split; auto. apply tok_idx in Hk. rewrite Hk. reflexivity.
  Qed.

  Lemma additions_la_iff p d q k : (exists l, additions_la g (p, d) q k = Ok l) <->
    exists a, nth_error (g_tokens g) k = Some a /\
      exists s, first g (rest g p (S d) ++ [a]) = Ok s /\ forall y, In y s -> In y (g_tokens g).
  Proof.
    unfold additions_la, get_token. destruct (nth_error (g_tokens g) k) as [a|] eqn:Ea.
    - rewrite item_iter_rest. split.
      + intros [l H]. apply bind_ok in H as (ts & Ef & H). exists a. split; auto. exists ts. split; auto.
        intros y Hy. destruct (mapM_ok_inv _ _ _ H _ Hy) as [b Hb].
        destruct (get_token_idx g y) eqn:E; [|discriminate]. apply get_token_idx_In. eauto.
      + intros (a' & E & ts & Ef & Hts). injection E as <-. rewrite Ef. cbn [bind].
        apply mapM_ok. intros y Hy. apply Hts, get_token_idx_In in Hy as [j Hj]. rewrite Hj. eauto.
    - split; [intros [l H]; discriminate|intros (a & E & _); discriminate].
  Qed.

  Lemma additions_item_ok p d las l : additions_item g ((p, d), las) = Ok l ->
    forall it k', In (it, k') l <-> exists q, it = (q, 0) /\ exists k, In k las /\ adds1 p d k q k'.
  Proof using W.
    unfold additions_item. intros H. apply bind_ok in H as (o & Eo & H).
    apply dot_name in Eo as (pr & Hp & Eo). destruct o as [n|].
    - assert (Hn : nth_error (p_syms pr) d = Some (SNon n)).
      { destruct (nth_error (p_syms pr) d) as [[]|]; try discriminate. injection Eo as <-. reflexivity. }
      apply bind_ok in H as (ps & Eps & H). apply bind_ok in H as (ll & Ell & H). injection H as <-.
      destruct (production_iter_ok _ _ W _ _ Eps) as (_ & _ & Hps).
      intros it k'. rewrite in_concat. split.
      + intros (l & Hl & Hin). apply (mapM_In _ _ _ Ell) in Hl as ([q pq] & Hq & E).
        simpl in E. apply bind_ok in E as (l2 & E2 & E). injection E as <-.
        apply in_concat in Hin as (l3 & Hl3 & Hin). apply (mapM_In _ _ _ E2) in Hl3 as (k & Hk & E3).
        apply (additions_la_ok _ _ _ _ _ E3) in Hin as [-> (a & b & H1 & H2 & H3)].
        apply Hps in Hq as [Hq1 Hq2]. exists q. split; auto. exists k. split; auto.
        exists pq, a, b. split; [|auto]. exists pr. rewrite Hq2. auto.
      + intros (q & -> & k & Hk & pq & a & b & (pr' & Hp' & Hd) & H2 & H3 & H4 & H5).
        rewrite Hp in Hp'. injection Hp' as <-. rewrite Hn in Hd. injection Hd as Hd.
        assert (Hq : In (q, pq) ps) by (apply Hps; auto).
        destruct (mapM_ok_inv _ _ _ Ell _ Hq) as [l E]. exists l. split; [apply (mapM_In _ _ _ Ell); eauto|].
        simpl in E. apply bind_ok in E as (l2 & E2 & E). injection E as <-.
        destruct (mapM_ok_inv _ _ _ E2 _ Hk) as [l3 E3]. apply in_concat. exists l3.
        split; [apply (mapM_In _ _ _ E2); eauto|].
        apply (additions_la_ok _ _ _ _ _ E3). split; auto. exists a, b. auto.
    - injection H as <-. intros it k'. split; [intros []|].
      intros (q & -> & k & Hk & pq & a & b & (pr' & Hp' & Hd) & _).
      rewrite Hp in Hp'. injection Hp' as <-. rewrite Hd in Eo. discriminate.
  Qed.

  Lemma additions_item_iff p d las : las <> [] -> (exists l, additions_item g ((p, d), las) = Ok l) <->
    forall k, In k las -> ready1 g p d k.
  Proof using W.
    intros Hne. unfold additions_item. split.
    - intros [l H] k Hk. apply bind_ok in H as (o & Eo & H). apply dot_name in Eo as (pr & Hp & Eo).
      split; [eauto|]. intros B (pr' & Hp' & Hd). rewrite Hp in Hp'. injection Hp' as <-.
      rewrite Hd in Eo. simpl in Eo. subst o. apply bind_ok in H as (ps & Eps & H).
      apply bind_ok in H as (ll & Ell & H).
      split; [apply (production_iter_defined _ _ W); eauto|].
      destruct (production_iter_ok _ _ W _ _ Eps) as (Hps & _ & _). destruct ps as [|[q pq] ps]; [tauto|].
      destruct (mapM_ok_inv _ _ _ Ell _ (or_introl eq_refl)) as [l' E].
      apply bind_ok in E as (l2 & E2 & _). destruct (mapM_ok_inv _ _ _ E2 _ Hk) as [l3 E3].
      apply (additions_la_iff p d q k). simpl in E3. eauto.
    - intros H. destruct las as [|k0 las]; [tauto|].
      destruct (H k0 (or_introl eq_refl)) as [[pr Hp] _].
      assert (Eo : exists o, dot_production_name g (p, d) = Ok o /\
         o = match nth_error (p_syms pr) d with Some x => as_non x | None => None end).
      { eexists. split; [apply dot_name; eauto|reflexivity]. }
      destruct Eo as (o & -> & Eo). cbn [bind]. destruct o as [n|]; [|eauto].
      assert (Hn : sym_at g p d (SNon n)).
      { exists pr. split; auto. destruct (nth_error (p_syms pr) d) as [[]|]; try discriminate. injection Eo as <-. reflexivity. }
      destruct (H k0 (or_introl eq_refl)) as [_ H0]. destruct (H0 n Hn) as [Hr _].
      apply (production_iter_defined _ _ W) in Hr as [ps ->]. cbn [bind].
      destruct (mapM_ok (fun ip => let* l := mapM (additions_la g (p, d) (fst ip)) (k0 :: las) in Ok (concat l)) ps) as [ll ->];
        [|cbn [bind]; eauto].
      intros [q pq] _. cbn [fst]. destruct (mapM_ok (additions_la g (p, d) q) (k0 :: las)) as [r ->]; [|cbn [bind]; eauto].
      intros k Hk. apply additions_la_iff. apply (H k Hk) in Hn. apply Hn.
  Qed.

  Lemma additions_ok s l : wf_set s -> additions g s = Ok l ->
    forall it k', In (it, k') l <-> exists q, it = (q, 0) /\ exists p d k, has s p d k /\ adds1 p d k q k'.
  Proof using W.
    intros Hs H. unfold additions in H. apply bind_ok in H as (ll & E & H). injection H as <-.
    intros it k'. rewrite in_concat. split.
    - intros (l & Hl & Hin). apply (mapM_In _ _ _ E) in Hl as ([[p d] las] & He & El).
      apply (additions_item_ok _ _ _ _ El) in Hin as (q & -> & k & Hk & Ha).
      exists q. split; auto. exists p, d, k. split; auto. exists las. auto.
    - intros (q & -> & p & d & k & (las & He & Hk) & Ha).
      destruct (mapM_ok_inv _ _ _ E _ He) as [l El]. exists l. split; [apply (mapM_In _ _ _ E); eauto|].
      apply (additions_item_ok _ _ _ _ El). eauto.
  Qed.

  Lemma additions_iff s : wf_set s -> (exists l, additions g s = Ok l) <-> ready g (has s).
  Proof using W.
    intros Hs. unfold additions. split.
    - intros [l H] p d k (las & He & Hk). apply bind_ok in H as (ll & E & H).
      destruct (mapM_ok_inv _ _ _ E _ He) as [r Er].
      eapply additions_item_iff; [apply (proj2 Hs _ _ He)| |exact Hk]. eauto.
    - intros H. destruct (mapM_ok (additions_item g) s) as [ll ->]; [|cbn [bind]; eauto].
      intros [[p d] las] He. apply additions_item_iff; [apply (proj2 Hs _ _ He)|].
      intros k Hk. apply H. exists las. auto.
  Qed.

  Lemma additions_div s : wf_set s -> additions g s = Diverge ->
    exists p d k a B, has s p d k /\ sym_at g p d (SNon B) /\ nth_error (g_tokens g) k = Some a /\
      first g (rest g p (S d) ++ [a]) = Diverge.
  Proof.
    intros Hs H. unfold additions in H. apply bind_div in H as [H|(l & _ & H)]; [|discriminate].
    apply mapM_div in H as ([[p d] las] & He & H). unfold additions_item in H.
    apply bind_div in H as [H|(o & Eo & H)].
    { unfold dot_production_name in H. apply bind_div in H as [H|(o & _ & H)]; [|discriminate].
      unfold dot_token in H. destruct (get_production _ _); discriminate. }
    apply dot_name in Eo as (pr & Hp & Eo). destruct o as [n|]; [|discriminate].
    apply bind_div in H as [H|(ps & Eps & H)].
    { unfold production_iter in H. destruct (map_get _ _); discriminate. }
    apply bind_div in H as [H|(l & _ & H)]; [|discriminate].
    apply mapM_div in H as ([q pq] & Hq & H). apply bind_div in H as [H|(l & _ & H)]; [|discriminate].
    apply mapM_div in H as (k & Hk & H). unfold additions_la, get_token in H.
    destruct (nth_error (g_tokens g) k) as [a|] eqn:Ea; [|discriminate].
    rewrite item_iter_rest in H. exists p, d, k, a, n. split; [exists las; auto|]. split; [|split; [exact Ea|]].
    - exists pr. split; auto. destruct (nth_error (p_syms pr) d) as [[]|]; try discriminate. injection Eo as <-. reflexivity.
    - apply bind_div in H as [H|(ts & _ & H)]; [exact H|]. apply mapM_div in H as (y & _ & H).
      destruct (get_token_idx g y); discriminate.
  Qed.

  (** *** One round *)

  Lemma add_pairs l : forall s b, wf_set s ->
    let r := fold_left add_pair l (s, b) in
    wf_set (fst r) /\
    (forall it k, is_mem (fst r) it k = true <-> is_mem s it k = true \/ In (it, k) l) /\
    (snd r = true <-> b = true \/ exists it k, In (it, k) l /\ is_mem s it k = false).
  Proof.
    induction l as [|[it0 k0] l IH]; intros s b Hs; simpl.
    - split; [exact Hs|]. split; [tauto|]. split; [auto|]. intros [H|(it & k & [] & _)]; exact H.
    - destruct (IH (is_insert s it0 k0) (if is_mem s it0 k0 then b else true)
                   (is_insert_wf _ _ _ Hs)) as (H1 & H2 & H3).
      split; [exact H1|]. split.
      + intros it k. rewrite H2, is_insert_mem by apply Hs. intuition (subst; auto). injection H0 as -> ->. auto.
      + rewrite H3. destruct (is_mem s it0 k0) eqn:E.
        * split.
          -- intros [H|(it & k & Hin & Hf)]; auto. right. exists it, k. split; auto.
             apply not_true_iff_false. intros C. apply not_true_iff_false in Hf. apply Hf.
             apply is_insert_mem; [apply Hs|auto].
          -- intros [H|(it & k & [Eq|Hin] & Hf)]; auto; [injection Eq as <- <-; congruence|].
             right. exists it, k. split; auto. apply not_true_iff_false. intros C.
             apply is_insert_mem in C; [|apply Hs]. destruct C as [[-> ->]|C]; congruence.
        * split; [intros _|auto]. right. exists it0, k0. split; [left; reflexivity|exact E].
  Qed.

  (** *** The loop *)
  Variable K : lrset.

  Definition Inv (s : item_set) : Prop := wf_set s /\ (forall p d k, K p d k -> has s p d k) /\
    forall p d k, has s p d k -> clo g (F_code g) K p d k.

  Lemma adds1_clo p d k q k' : clo g (F_code g) K p d k -> adds1 p d k q k' -> clo g (F_code g) K q 0 k'.
  Proof. intros H (pq & a & b & H1 & H2 & H3 & H4 & H5). eapply clo_rule; eauto. Qed.

  Lemma closure_step_inl s s' : Inv s -> closure_step g s = inl s' ->
    Inv s' /\ (forall it k, is_mem s it k = true -> is_mem s' it k = true) /\
    exists q k, q < length (g_prods g) /\ k < length (g_tokens g) /\
      is_mem s (q, 0) k = false /\ is_mem s' (q, 0) k = true.
  Proof using W.
    intros (Hs & HK & Hc) H. unfold closure_step in H. destruct (additions g s) as [adds| |] eqn:Ea; try discriminate.
    destruct (add_pairs adds s false Hs) as (H1 & H2 & H3).
    destruct (fold_left add_pair adds (s, false)) as [s2 b]. simpl in H1, H2, H3.
    destruct b; [|discriminate]. injection H as <-.
    pose proof (additions_ok _ _ Hs Ea) as Hadd.
    split; [split; [exact H1|split]|split].
    - intros p d k Hk. apply is_mem_has; [apply H1|]. apply H2. left. apply is_mem_has; [apply Hs|]. auto.
    - intros p d k Hk. apply is_mem_has in Hk; [|apply H1]. apply H2 in Hk as [Hk|Hk].
      + apply Hc. apply is_mem_has; [apply Hs|exact Hk].
      + apply Hadd in Hk as (q & E & p' & d' & k' & Hh & Ha). injection E as -> ->.
        eapply adds1_clo; eauto.
    - intros it k Hk. apply H2. auto.
    - destruct (proj1 H3 eq_refl) as [C|(it & k & Hin & Hf)]; [discriminate|].
      pose proof Hin as Hin'. apply Hadd in Hin' as (q & -> & p' & d' & k' & Hh & pq & a & b & _ & Hq & _ & _ & Ht & _).
      exists q, k. apply nth_error_lt in Hq. apply nth_error_lt in Ht. repeat split; auto. apply H2. auto.
  Qed.

  Lemma closure_step_inr s r : Inv s -> closure_step g s = inr r ->
    (exists s', r = Ok s' /\ wf_set s' /\ represents s' (clo g (F_code g) K) /\ ready g (clo g (F_code g) K)) \/
    ((forall s', r <> Ok s') /\ ~ ready g (clo g (F_code g) K)).
  Proof using W.
    intros (Hs & HK & Hc) H. unfold closure_step in H. destruct (additions g s) as [adds|pn|] eqn:Ea.
    - destruct (add_pairs adds s false Hs) as (H1 & H2 & H3).
      destruct (fold_left add_pair adds (s, false)) as [s2 b]. simpl in H1, H2, H3.
      destruct b; [discriminate|]. injection H as <-. left. exists s2.
      pose proof (additions_ok _ _ Hs Ea) as Hadd.
      assert (Hno : forall it k, In (it, k) adds -> is_mem s it k = true).
      { intros it k Hin. destruct (is_mem s it k) eqn:E; auto. exfalso.
        assert (false = true) by (apply H3; right; eauto). discriminate. }
      assert (E2 : s2 = s).
      { apply wf_set_ext; auto. intros p d k. rewrite <- !is_mem_has by (apply H1 || apply Hs).
        rewrite H2. split; [intros [H|H]; auto|auto]. }
      assert (Hrep : represents s (clo g (F_code g) K)).
      { intros p d k. split; [apply Hc|]. induction 1 as [p d k H|p d k a q pq b k' Hcl IH Hsym Hq Ha HF Ht]; auto.
        apply is_mem_has; [apply Hs|]. apply Hno. apply Hadd. exists q. split; auto.
        exists p, d, k. split; auto. exists pq, a, b. auto. }
      rewrite E2. split; auto. split; auto. split; auto.
      intros p d k Hk. apply Hrep in Hk. revert p d k Hk. apply additions_iff; eauto.
    - injection H as <-. right. split; [discriminate|]. intros Hr.
      destruct (proj2 (additions_iff s Hs)) as [l El]; [|congruence]. intros p d k Hk. apply Hr, Hc, Hk.
    - injection H as <-. right. split; [discriminate|]. intros Hr.
      destruct (proj2 (additions_iff s Hs)) as [l El]; [|congruence]. intros p d k Hk. apply Hr, Hc, Hk.
  Qed.

  Definition U : list (nat * nat) := list_prod (seq 0 (length (g_prods g))) (seq 0 (length (g_tokens g))).
  Definition mu (s : item_set) : nat :=
    length (filter (fun qk => negb (is_mem s (fst qk, 0) (snd qk))) U).

  Lemma filter_len_le {A} (f h : A -> bool) l : (forall x, In x l -> h x = true -> f x = true) ->
    length (filter h l) <= length (filter f l).
  Proof.
    induction l as [|x l IH]; intros H; simpl; auto.
    assert (length (filter h l) <= length (filter f l)) by (apply IH; intros; apply H; [right|]; auto).
    pose proof (H x (or_introl eq_refl)) as Hx.
    destruct (h x); [rewrite Hx by reflexivity; simpl; lia|]. destruct (f x); simpl; lia.
  Qed.
  Lemma filter_len_lt {A} (f h : A -> bool) l y : (forall x, In x l -> h x = true -> f x = true) ->
    In y l -> f y = true -> h y = false -> length (filter h l) < length (filter f l).
  Proof.
    induction l as [|x l IH]; intros H Hy Hf Hh; simpl; [destruct Hy|].
    assert (Hle : length (filter h l) <= length (filter f l)) by (apply filter_len_le; intros; apply H; [right|]; auto).
    pose proof (H x (or_introl eq_refl)) as Hx. destruct Hy as [->|Hy].
    - rewrite Hf, Hh. simpl. lia.
    - assert (length (filter h l) < length (filter f l)) by (apply IH; auto; intros; apply H; [right|]; auto).
      destruct (h x); [rewrite Hx by reflexivity; simpl; lia|]. destruct (f x); simpl; lia.
  Qed.

  Lemma closure_loop s : Inv s -> exists r, run (closure_step g) (closure_bits g) s = inr r.
  Proof using W.
    intros HI. apply (run_measure _ Inv (fun s => N.of_nat (mu s))).
    - intros t t' Ht E. destruct (closure_step_inl _ _ Ht E) as (H1 & H2 & q & k & Hq & Hk & Hf & Hm).
      split; auto. assert (mu t' < mu t); [|lia]. unfold mu.
      apply (filter_len_lt _ _ _ (q, k)).
      + intros [q' k'] _. simpl. rewrite !negb_true_iff. intros Hn. apply not_true_iff_false.
        intros C. apply H2 in C. congruence.
      + unfold U. apply in_prod; apply in_seq; lia.
      + simpl. rewrite Hf. reflexivity.
      + simpl. rewrite Hm. reflexivity.
    - exact HI.
    - assert (H : mu s <= length (g_prods g) * length (g_tokens g)).
      { unfold mu. etransitivity; [apply (filter_len_le (fun _ => true)); auto|].
        replace (length (filter (fun _ : nat * nat => true) U)) with (length U).
        - unfold U. rewrite prod_length, !seq_length. lia.
        - clear. induction U; simpl; auto. }
      unfold closure_bits. set (n := (N.of_nat (length (g_prods g)) * N.of_nat (length (g_tokens g)) + 1)%N).
      assert (N.of_nat (mu s) < n)%N by (unfold n; lia).
      eapply N.lt_trans; [exact H0|]. pose proof (N.size_gt n) as Hg.
      replace (N.of_nat (N.size_nat n)) with (N.size n); [exact Hg|].
      clear. destruct n as [|p]; simpl; auto. induction p; simpl; auto; rewrite Nat2N.inj_succ || idtac; lia.
  Qed.

  Lemma closure_gen s : Inv s ->
    (exists s', closure g s = Ok s' /\ wf_set s' /\ represents s' (clo g (F_code g) K) /\ ready g (clo g (F_code g) K)) \/
    ((forall s', closure g s <> Ok s') /\ ~ ready g (clo g (F_code g) K)).
  Proof using W.
    intros HI. destruct (closure_loop s HI) as [r Er]. unfold closure. rewrite Er.
    pose proof (run_inv (closure_step g) Inv (fun r =>
      (exists s', r = Ok s' /\ wf_set s' /\ represents s' (clo g (F_code g) K) /\ ready g (clo g (F_code g) K)) \/
      ((forall s', r <> Ok s') /\ ~ ready g (clo g (F_code g) K))) (closure_bits g) s) as H.
    rewrite Er in H. apply H; auto.
    - intros t t' Ht E. apply (closure_step_inl _ _ Ht E).
    - intros t r' Ht E. exact (closure_step_inr _ _ Ht E).
  Qed.
  Lemma closure_div s : Inv s -> closure g s = Diverge ->
    exists p d k a B, clo g (F_code g) K p d k /\ sym_at g p d (SNon B) /\ nth_error (g_tokens g) k = Some a /\
      first g (rest g p (S d) ++ [a]) = Diverge.
  Proof using W.
    intros HI. destruct (closure_loop s HI) as [r Er]. unfold closure. rewrite Er.
    pose proof (run_inv (closure_step g) Inv (fun r => r = Diverge ->
      exists p d k a B, clo g (F_code g) K p d k /\ sym_at g p d (SNon B) /\ nth_error (g_tokens g) k = Some a /\
        first g (rest g p (S d) ++ [a]) = Diverge) (closure_bits g) s) as H.
    rewrite Er in H. apply H; auto.
    - intros t t' Ht E. apply (closure_step_inl _ _ Ht E).
    - intros t r' (Hs & _ & Hc) E ->. unfold closure_step in E.
      destruct (additions g t) as [adds|pn|] eqn:Ea; [|discriminate|].
      + destruct (fold_left _ _ _) as [s2 []]; discriminate.
      + destruct (additions_div _ Hs Ea) as (p & d & k & a & B & H1 & H2). exists p, d, k, a, B. split; auto.
  Qed.
End Closure.

Lemma clo_mono g F (K K' : lrset) : (forall p d k, K p d k -> K' p d k) -> forall p d k, clo g F K p d k -> clo g F K' p d k.
Proof. intros H p d k. induction 1; [apply clo_base; auto|eapply clo_rule; eauto]. Qed.
Lemma clo_ext g F (K K' : lrset) : (forall p d k, K p d k <-> K' p d k) -> forall p d k, clo g F K p d k <-> clo g F K' p d k.
Proof. intros H p d k. split; apply clo_mono; intros; apply H; assumption. Qed.
Lemma clo_first g (F F' : list sym -> sym -> Prop) (K : lrset) : (forall l y, F l y -> F' l y) -> forall p d k, clo g F K p d k -> clo g F' K p d k.
Proof. intros H p d k. induction 1; [apply clo_base; auto|eapply clo_rule; eauto]. Qed.
Lemma clo_idem g F K p d k : clo g F (clo g F K) p d k -> clo g F K p d k.
Proof. induction 1; auto. eapply clo_rule; eauto. Qed.
Lemma move_ext g (K K' : lrset) x : (forall p d k, K p d k <-> K' p d k) -> forall p d k, move g K x p d k <-> move g K' x p d k.
Proof. intros H p d k. unfold move. split; intros (d' & -> & H1 & H2); exists d'; rewrite H in *; auto. Qed.
Lemma ready_ext g (K K' : lrset) : (forall p d k, K p d k <-> K' p d k) -> ready g K <-> ready g K'.
Proof. intros H. unfold ready. split; intros R p d k Hk; apply R, H, Hk. Qed.

Section Sets.
  Variables (g : grammar) (start : str).
  Hypothesis W : wf_grammar g start.

  Lemma closure_spec s : wf_set s ->
    (exists s', closure g s = Ok s' /\ wf_set s' /\ represents s' (clo g (F_code g) (has s)) /\
       ready g (clo g (F_code g) (has s))) \/
    ((forall s', closure g s <> Ok s') /\ ~ ready g (clo g (F_code g) (has s))).
  Proof using W.
    intros Hs. apply (closure_gen g start W (has s)). split; auto. split; auto.
    intros p d k H. apply clo_base, H.
  Qed.

  Lemma closure_div_spec s : wf_set s -> closure g s = Diverge ->
    exists p d k a B, clo g (F_code g) (has s) p d k /\ sym_at g p d (SNon B) /\ nth_error (g_tokens g) k = Some a /\
      first g (rest g p (S d) ++ [a]) = Diverge.
  Proof using W.
    intros Hs. apply (closure_div g start W (has s)). split; auto. split; auto.
    intros p d k H. apply clo_base, H.
  Qed.

  (** *** goto *)

  Lemma insert_las las it : forall j, wf_set j ->
    let r := fold_left (fun j a => is_insert j it a) las j in
    wf_set r /\ forall it' k, is_mem r it' k = true <-> is_mem j it' k = true \/ (it' = it /\ In k las).
  Proof.
    induction las as [|a las IH]; intros j Hj; simpl.
    - split; auto. intros it' k. tauto.
    - destruct (IH (is_insert j it a) (is_insert_wf _ _ _ Hj)) as [H1 H2]. split; auto.
      intros it' k. rewrite H2, is_insert_mem by apply Hj. intuition (subst; auto).
  Qed.

  Lemma goto_kernel s x : wf_set s -> (forall p d k, has s p d k -> exists pr, nth_error (g_prods g) p = Some pr) ->
    exists j, foldM (goto_kernel_step g x) s [] = Ok j /\ wf_set j /\ represents j (move g (has s) x).
  Proof.
    intros [_ Hs] Hp.
    assert (G : forall l j0, (forall e, In e l -> In e s) -> wf_set j0 ->
      exists j, foldM (goto_kernel_step g x) l j0 = Ok j /\ wf_set j /\
        forall p d k, is_mem j (p, d) k = true <-> is_mem j0 (p, d) k = true \/ move g (has l) x p d k).
    { induction l as [|[[p d] las] l IH]; intros j0 Hin Hj; cbn [foldM].
      - exists j0. split; auto. split; auto. intros p d k. split; auto.
        intros [H|(d' & _ & H & _)]; auto. destruct (has_nil _ _ _ H).
      - destruct (Hs _ _ (Hin _ (or_introl eq_refl))) as [_ Hne].
        assert (exists pr, nth_error (g_prods g) p = Some pr) as [pr Hpr].
        { destruct las as [|k las]; [tauto|]. apply (Hp p d k). exists (k :: las). split; [apply Hin|]; left; reflexivity. }
        unfold goto_kernel_step at 1. rewrite (dot_token_some _ _ _ _ Hpr). cbn [bind].
        assert (Hcase : forall j1, wf_set j1 ->
          (forall p' d' k, is_mem j1 (p', d') k = true <-> is_mem j0 (p', d') k = true \/
             (p' = p /\ d' = S d /\ In k las /\ sym_at g p d x)) ->
          exists j, foldM (goto_kernel_step g x) l j1 = Ok j /\ wf_set j /\
          forall p' d' k, is_mem j (p', d') k = true <-> is_mem j0 (p', d') k = true \/ move g (has (((p, d), las) :: l)) x p' d' k).
        { intros j1 Hj1 H1. destruct (IH j1) as (j & Ej & Hwj & Hj'); auto; [intros; apply Hin; right; auto|].
          exists j. split; auto. split; auto. intros p' d' k. rewrite Hj', H1. unfold move, has. split.
          - intros [[H|(-> & -> & Hk & Hx)]|(e & -> & (las' & Hl & Hk) & Hx)]; auto.
            + right. exists d. split; auto. split; auto. exists las. split; [left|]; auto.
            + right. exists e. split; auto. split; auto. exists las'. split; [right|]; auto.
          - intros [H|(e & -> & (las' & [E|Hl] & Hk) & Hx)]; auto.
            + injection E as -> -> ->. left. right. auto.
            + right. exists e. split; auto. split; auto. exists las'. auto. }
        destruct (nth_error (p_syms pr) d) as [y|] eqn:Ey; [destruct (eqb y x) eqn:Ex|].
        + apply eqb_eq in Ex; subst y. cbn [bind]. destruct (insert_las las (increment (p, d)) j0 Hj) as [H1 H2].
          apply Hcase; auto. intros p' d' k. rewrite H2. unfold increment. cbn [fst snd].
          split; (intros [H|H]; [left; exact H|right]).
          * destruct H as [E Hk]. injection E as -> ->. repeat split; auto. exists pr. auto.
          * destruct H as (-> & -> & Hk & _). auto.
        + cbn [bind]. apply Hcase; auto. intros p' d' k. split; auto. intros [H|(_ & _ & _ & (pr' & Hpr' & Hx))]; auto.
          rewrite Hpr in Hpr'. injection Hpr' as <-. rewrite Ey in Hx. injection Hx as ->.
          rewrite eqb_refl in Ex. discriminate.
        + cbn [bind]. apply Hcase; auto. intros p' d' k. split; auto. intros [H|(_ & _ & _ & (pr' & Hpr' & Hx))]; auto.
          rewrite Hpr in Hpr'. injection Hpr' as <-. congruence. }
    destruct (G s [] (fun _ H => H) wf_set_nil) as (j & Ej & Hj & Hm). exists j. split; auto. split; auto.
    intros p d k. rewrite <- is_mem_has by apply Hj. rewrite Hm. split; auto. intros [H|H]; auto. discriminate.
  Qed.

  Lemma goto_spec s x : wf_set s -> (forall p d k, has s p d k -> exists pr, nth_error (g_prods g) p = Some pr) ->
    (exists s', goto g s x = Ok s' /\ wf_set s' /\ represents s' (clo g (F_code g) (move g (has s) x)) /\
       ready g (clo g (F_code g) (move g (has s) x))) \/
    ((forall s', goto g s x <> Ok s') /\ ~ ready g (clo g (F_code g) (move g (has s) x))).
  Proof using W.
    intros Hs Hp. destruct (goto_kernel s x Hs Hp) as (j & Ej & Hj & Hm). unfold goto. rewrite Ej. cbn [bind].
    pose proof (clo_ext g (F_code g) _ _ Hm) as He.
    destruct (closure_spec j Hj) as [(s' & E & Hw & Hr & Hd)|[H1 H2]].
    - left. exists s'. split; auto. split; auto. split.
      + intros p d k. rewrite (Hr p d k). apply He.
      + apply (ready_ext g _ _ He). exact Hd.
    - right. split; auto. intros H. apply H2. apply (ready_ext g _ _ He). exact H.
  Qed.

  Lemma goto_div s x : wf_set s -> (forall p d k, has s p d k -> exists pr, nth_error (g_prods g) p = Some pr) ->
    goto g s x = Diverge ->
    exists p d k a B, clo g (F_code g) (move g (has s) x) p d k /\ sym_at g p d (SNon B) /\ nth_error (g_tokens g) k = Some a /\
      first g (rest g p (S d) ++ [a]) = Diverge.
  Proof using W.
    intros Hs Hp. destruct (goto_kernel s x Hs Hp) as (j & Ej & Hj & Hm). unfold goto. rewrite Ej. cbn [bind].
    intros H. destruct (closure_div_spec _ Hj H) as (p & d & k & a & B & H1 & H2).
    exists p, d, k, a, B. split; auto. apply (clo_ext g (F_code g) _ _ Hm). exact H1.
  Qed.

  (** *** The collection *)

  Definition lr := lr_state g (F_code g).
  Definition valid (I : lrset) : Prop := forall p d k, I p d k ->
    exists pr, nth_error (g_prods g) p = Some pr /\ d <= length (p_syms pr) /\ k < length (g_tokens g).

  Lemma clo_valid F K : valid K -> valid (clo g F K).
  Proof.
    intros H p d k. induction 1 as [p d k Hk|p d k a q pq b k' _ _ _ Hq _ _ [Ht _]]; auto.
    exists pq. split; auto. split; [lia|]. apply nth_error_lt in Ht. exact Ht.
  Qed.
  Lemma move_valid I x : valid I -> valid (move g I x).
  Proof.
    intros H p d k (d' & -> & Hi & (pr & Hp & Hx)). destruct (H _ _ _ Hi) as (pr' & Hp' & _ & Hk).
    rewrite Hp in Hp'. injection Hp' as <-. exists pr. split; auto. split; auto.
    apply nth_error_lt in Hx. exact Hx.
  Qed.
  Lemma init_valid : valid init_set.
  Proof using W.
    intros p d k (-> & -> & ->). rewrite (wg_prod0 _ _ W). eexists. split; [reflexivity|]. split; [lia|].
    pose proof (token_eof _ _ W) as H. apply nth_error_lt in H. exact H.
  Qed.
  Lemma lr_valid I : lr I -> valid I.
  Proof using W.
    induction 1 as [|I x _ IH _]; apply clo_valid; [apply init_valid|apply move_valid, IH].
  Qed.
  Lemma lr_nonempty I : lr I -> exists p d k, I p d k.
  Proof.
    destruct 1 as [|I x H (p & d & k & Hm)].
    - exists 0, 0, 0. apply clo_base. repeat split.
    - exists p, d, k. apply clo_base, Hm.
  Qed.
  Lemma move_token I x : (exists p d k, move g I x p d k) -> In x (g_tokens g).
  Proof using W.
    intros (p & d & k & d' & _ & _ & pr & Hp & Hx).
    apply (token_of_body _ _ W pr); eauto using nth_error_In.
  Qed.
  Lemma clo_empty F (K : lrset) : (forall p d k, ~ K p d k) -> forall p d k, ~ clo g F K p d k.
  Proof. intros H p d k. induction 1; auto. eapply H; eauto. Qed.

  (** States represented by an item set are taken up to equivalence. *)
  Definition state_of (s : item_set) : Prop := wf_set s /\ exists I, lr I /\ represents s I.

  Lemma goto_state_of s x : state_of s -> 
    (exists s', goto g s x = Ok s' /\ wf_set s' /\ represents s' (clo g (F_code g) (move g (has s) x)) /\
       ready g (has s') /\ (s' <> [] -> state_of s') /\ (s' <> [] <-> exists p d k, move g (has s) x p d k)) \/
    ((forall s', goto g s x <> Ok s') /\ ~ forall I, lr I -> ready g I).
  Proof using W.
    intros (Hw & I & HI & Hr).
    assert (Hp : forall p d k, has s p d k -> exists pr, nth_error (g_prods g) p = Some pr).
    { intros p d k H. apply Hr in H. destruct (lr_valid _ HI _ _ _ H) as (pr & E & _). eauto. }
    pose proof (move_ext g _ _ x Hr) as Hm. pose proof (clo_ext g (F_code g) _ _ Hm) as Hc.
    destruct (goto_spec s x Hw Hp) as [(s' & E & Hw' & Hr' & Hd)|[H1 H2]].
    - left. exists s'. split; auto. split; auto. split; auto.
      assert (Hne : s' <> [] <-> exists p d k, move g (has s) x p d k).
      { rewrite (wf_set_nonempty _ Hw'). split.
        - intros (p & d & k & H). apply Hr' in H.
          assert (forall p d k, clo g (F_code g) (move g (has s) x) p d k -> exists p d k, move g (has s) x p d k).
          { clear. intros p d k. induction 1; eauto. }
          eauto.
        - intros (p & d & k & H). exists p, d, k. apply Hr', clo_base, H. }
      split; [|split; auto].
      + intros p d k H. apply Hd, Hr', H.
      + intros Hn. split; auto. exists (clo g (F_code g) (move g I x)). split.
        * apply lr_goto; auto. apply Hne in Hn as (p & d & k & H). exists p, d, k. apply Hm, H.
        * intros p d k. rewrite (Hr' p d k). apply Hc.
    - right. split; auto. intros H. apply H2.
      destruct (wf_set_nonempty _ Hw) as [_ _].
      intros p d k Hk. pose proof Hk as Hk'. apply Hc in Hk'.
      assert (Hne : exists p d k, move g I x p d k).
      { assert (G : forall p d k, clo g (F_code g) (move g I x) p d k -> exists p d k, move g I x p d k).
        { clear. intros p d k. induction 1; eauto. }
        eauto. }
      exact (H _ (lr_goto _ _ _ _ HI Hne) _ _ _ Hk').
  Qed.

  Lemma state_ready s : state_of s -> (forall I, lr I -> ready g I) -> ready g (has s).
  Proof. intros (_ & I & HI & Hr) H. apply (ready_ext g _ _ Hr). auto. Qed.

  Definition CInv (i0 : item_set) (C : list item_set) : Prop :=
    (exists l, C = i0 :: l) /\ NoDup C /\ forall s, In s C -> state_of s.

  Lemma is_contains_In C s : is_contains C s = true <-> In s C.
  Proof.
    unfold is_contains, is_index. destruct (find_index _ _) as [i|] eqn:E.
    - apply find_index_some in E as ((y & Hy & Ey) & _). apply eqb_eq in Ey; subst y.
      split; auto. intros _. eauto using nth_error_In.
    - split; [discriminate|]. intros H. pose proof (proj1 (find_index_none _ _) E s H) as Hf. simpl in Hf.
      rewrite eqb_refl in Hf. discriminate.
  Qed.

  Lemma index_inserts l : forall C, NoDup C ->
    let r := fold_left index_set_insert l C in
    NoDup r /\ (forall s, In s r <-> In s C \/ In s l) /\ (exists e, r = C ++ e).
  Proof.
    induction l as [|s l IH]; intros C HC; simpl.
    - split; auto. split; [tauto|]. exists []. rewrite app_nil_r. reflexivity.
    - assert (HN : NoDup (index_set_insert C s) /\ (forall t, In t (index_set_insert C s) <-> In t C \/ t = s) /\
                   exists e, index_set_insert C s = C ++ e).
      { unfold index_set_insert. destruct (is_contains C s) eqn:E.
        - apply is_contains_In in E. split; auto. split; [|exists []; rewrite app_nil_r; reflexivity].
          intros t. split; auto. intros [H|H]; subst; auto.
        - assert (~ In s C) by (rewrite <- is_contains_In, E; discriminate).
          split; [apply NoDup_snoc; auto|]. split; [|eauto]. intros t. rewrite in_app_iff. simpl. intuition auto. }
      destruct HN as (H1 & H2 & e & He). destruct (IH _ H1) as (H3 & H4 & e' & He').
      split; auto. split.
      + intros t. rewrite H4, H2. intuition auto.
      + exists (e ++ e'). rewrite He', He, app_assoc. reflexivity.
  Qed.

  Definition Good : Prop := forall I, lr I -> ready g I.

  Lemma items_new_spec C : (forall s, In s C -> state_of s) ->
    (exists temp, items_new g C = Ok temp /\
      forall t, In t temp <-> ~ In t C /\ t <> [] /\ exists s x, In s C /\ In x (g_tokens g) /\ goto g s x = Ok t /\ state_of t) \/
    ((forall temp, items_new g C <> Ok temp) /\ ~ Good).
  Proof using W.
    intros HC. unfold items_new.
    destruct (mapM (items_new_of g C) C) as [ll|pn|] eqn:E.
    - left. cbn [bind]. eexists. split; [reflexivity|]. intros t. rewrite in_concat. split.
      + intros (l & Hl & Ht). apply (mapM_In _ _ _ E) in Hl as (s & Hs & El).
        unfold items_new_of in El. apply bind_ok in El as (l2 & E2 & El). injection El as <-.
        apply in_concat in Ht as (l3 & Hl3 & Ht). apply (mapM_In _ _ _ E2) in Hl3 as (x & Hx & E3).
        apply bind_ok in E3 as (j & Ej & E3). injection E3 as <-.
        destruct (_ && _) eqn:Ec; [|destruct Ht]. destruct Ht as [<-|[]].
        apply andb_true_iff in Ec as [Ec1 Ec2]. apply negb_true_iff in Ec2.
        assert (Hj : j <> []) by (destruct j; [discriminate|discriminate]).
        split; [rewrite <- is_contains_In, Ec2; discriminate|]. split; auto.
        exists s, x. split; [exact Hs|]. split; [exact Hx|]. split; [exact Ej|]. destruct (goto_state_of s x (HC s Hs)) as [(s' & E' & _ & _ & _ & Hst & _)|[Hno _]];
          [rewrite Ej in E'; injection E' as <-; apply (Hst Hj)|destruct (Hno _ Ej)].
      + intros (Hn & Hne & s & x & Hs & Hx & Ej & _).
        destruct (mapM_ok_inv _ _ _ E _ Hs) as [l El]. exists l. split; [apply (mapM_In _ _ _ E); eauto|].
        unfold items_new_of in El. apply bind_ok in El as (l2 & E2 & El). injection El as <-.
        destruct (mapM_ok_inv _ _ _ E2 _ Hx) as [l3 E3]. apply in_concat. exists l3.
        split; [apply (mapM_In _ _ _ E2); eauto|].
        rewrite Ej in E3. cbn [bind] in E3. injection E3 as <-.
        destruct (is_contains C t) eqn:Ec; [apply is_contains_In in Ec; tauto|].
        destruct t; [tauto|]. left. reflexivity.
    - right. split; [discriminate|]. intros HG.
      destruct (mapM_ok (items_new_of g C) C) as [r Er]; [|congruence].
      intros s Hs. unfold items_new_of. destruct (mapM_ok (fun x => let* j := goto g s x in
         Ok (if (match j with [] => false | _ => true end) && negb (is_contains C j) then [j] else [])) (g_tokens g)) as [r Er].
      + intros x _. destruct (goto_state_of s x (HC s Hs)) as [(s' & -> & _)|[_ Hno]]; [cbn [bind]; eauto|destruct (Hno HG)].
      + rewrite Er. cbn [bind]. eauto.
    - right. split; [discriminate|]. intros HG.
      destruct (mapM_ok (items_new_of g C) C) as [r Er]; [|congruence].
      intros s Hs. unfold items_new_of. destruct (mapM_ok (fun x => let* j := goto g s x in
         Ok (if (match j with [] => false | _ => true end) && negb (is_contains C j) then [j] else [])) (g_tokens g)) as [r Er].
      + intros x _. destruct (goto_state_of s x (HC s Hs)) as [(s' & -> & _)|[_ Hno]]; [cbn [bind]; eauto|destruct (Hno HG)].
      + rewrite Er. cbn [bind]. eauto.
  Qed.

  (** Counting. *)
  Definition all_items : list (nat * nat) :=
    flat_map (fun ip => map (pair (fst ip)) (seq 0 (S (length (p_syms (snd ip))))))
      (combine (seq 0 (length (g_prods g))) (g_prods g)).
  Definition all_triples : list (nat * nat * nat) := list_prod all_items (seq 0 (length (g_tokens g))).

  Lemma all_items_length : length all_items = list_sum (map (fun p => S (length (p_syms p))) (g_prods g)).
  Proof.
    unfold all_items.
    assert (G : forall l i, length (flat_map (fun ip : nat * production => map (pair (fst ip)) (seq 0 (S (length (p_syms (snd ip))))))
      (combine (seq i (length l)) l)) = list_sum (map (fun p => S (length (p_syms p))) l)).
    { induction l as [|p l IH]; intros i; auto. specialize (IH (S i)).
      remember (fun ip : nat * production => map (pair (fst ip)) (seq 0 (S (length (p_syms (snd ip)))))) as f eqn:Ef.
      simpl. rewrite app_length, IH. rewrite Ef. cbn [fst snd]. rewrite map_length, seq_length. reflexivity. }
    apply G.
  Qed.
  Lemma all_items_In p pr d : nth_error (g_prods g) p = Some pr -> d <= length (p_syms pr) -> In (p, d) all_items.
  Proof.
    intros Hp Hd. unfold all_items. apply in_flat_map. exists (p, pr). split.
    - assert (G : forall l i k, nth_error l k = Some pr -> In (i + k, pr) (combine (seq i (length l)) l)).
      { clear. induction l as [|x l IH]; intros i k H; [destruct k; discriminate|]. destruct k as [|k]; simpl in *.
        - injection H as ->. left. f_equal. lia.
        - right. replace (i + S k) with (S i + k) by lia. apply IH, H. }
      apply (G _ 0 p Hp).
    - simpl fst. simpl snd. apply in_map. apply in_seq. lia.
  Qed.
  Lemma all_triples_length : length all_triples = pairs_count g.
  Proof. unfold all_triples, pairs_count. rewrite prod_length, seq_length, all_items_length. reflexivity. Qed.

  Definition enc (s : item_set) : list (nat * nat * nat) :=
    filter (fun x => is_mem s (fst x) (snd x)) all_triples.

  Lemma filter_sublists {A} (f : A -> bool) l : In (filter f l) (sublists l).
  Proof.
    induction l as [|x l IH]; simpl; auto. apply in_or_app. destruct (f x); auto using in_map.
  Qed.

  Lemma enc_inj s t : state_of s -> state_of t -> enc s = enc t -> s = t.
  Proof using W.
    intros (Hs & I & HI & HIr) (Ht & J & HJ & HJr) E. apply wf_set_ext; auto.
    assert (G : forall s I, wf_set s -> lr I -> represents s I -> forall p d k, has s p d k <-> In (p, d, k) (enc s)).
    { clear -W. intros s I Hs HI Hr p d k. unfold enc. rewrite filter_In. simpl. rewrite is_mem_has by apply Hs.
      split; [|tauto]. intros H. split; auto. apply Hr in H. destruct (lr_valid _ HI _ _ _ H) as (pr & Hp & Hd & Hk).
      unfold all_triples. apply in_prod; [eapply all_items_In; eauto|]. apply in_seq. lia. }
    intros p d k. rewrite (G s I), (G t J) by assumption. rewrite E. reflexivity.
  Qed.

  Lemma states_count C : NoDup C -> (forall s, In s C -> state_of s) -> length C <= 2 ^ pairs_count g.
  Proof using W.
    intros Hn Hs. rewrite <- (map_length enc C), <- all_triples_length, <- sublists_length.
    apply NoDup_incl_length.
    - clear -W Hn Hs. induction Hn as [|s C Hin Hn IH]; simpl; constructor.
      + intros H. apply in_map_iff in H as (t & E & Ht). apply Hin. rewrite (enc_inj s t); auto; apply Hs; [left|right]; auto.
      + apply IH. intros; apply Hs; right; auto.
    - intros l H. apply in_map_iff in H as (s & <- & _). apply filter_sublists.
  Qed.

  Definition final (i0 : item_set) (C : list item_set) : Prop :=
    CInv i0 C /\ (forall I, lr I -> exists s, In s C /\ represents s I) /\ Good.

  Lemma items_step_inl i0 C C' : CInv i0 C -> items_step g C = inl C' -> CInv i0 C' /\ length C < length C'.
  Proof using W.
    intros ((l & El) & Hn & Hs) H. unfold items_step in H.
    destruct (items_new_spec C Hs) as [(temp & E & Ht)|[Hno _]].
    - rewrite E in H. destruct temp as [|t temp]; [discriminate|]. injection H as <-.
      destruct (index_inserts (rev (t :: temp)) C Hn) as (H1 & H2 & e & He). cbn [rev] in *.
      split; [split; [|split; auto]|].
      + exists (l ++ e). rewrite He, El. reflexivity.
      + intros s Hin. apply H2 in Hin as [Hin|Hin]; auto.
        assert (Hin' : In s (t :: temp)) by (apply in_rev; exact Hin).
        apply Ht in Hin' as (_ & _ & _ & _ & _ & _ & _ & H). exact H.
      + rewrite He, app_length. destruct e as [|x e]; [|simpl; lia]. exfalso. rewrite app_nil_r in He.
        destruct (proj1 (Ht t) (or_introl eq_refl)) as [Hnt _]. apply Hnt. rewrite <- He. apply H2. right.
        change (In t (rev (t :: temp))). apply in_rev. rewrite rev_involutive. left. reflexivity.
    - destruct (items_new g C) as [temp|pn|] eqn:E; try discriminate. destruct (Hno _ eq_refl).
  Qed.

  Lemma items_step_inr i0 C r : represents i0 (clo g (F_code g) init_set) -> ready g (has i0) ->
    CInv i0 C -> items_step g C = inr r ->
    (exists C', r = Ok C' /\ final i0 C') \/ ((forall C', r <> Ok C') /\ ~ Good).
  Proof using W.
    intros Hi0 Hr0 HC H. pose proof HC as ((l & El) & Hn & Hs). unfold items_step in H.
    destruct (items_new_spec C Hs) as [(temp & E & Ht)|[Hno Hng]].
    - rewrite E in H. destruct temp as [|t temp]; [|discriminate]. injection H as <-. left. exists C.
      split; auto.
      assert (G : forall I, lr I -> (exists s, In s C /\ represents s I) /\ ready g I).
      { induction 1 as [|I x HI [(s & HsC & Hr) _] Hne].
        - split; [exists i0; split; [rewrite El; left; reflexivity|exact Hi0]|].
          apply (ready_ext g _ _ Hi0). exact Hr0.
        - destruct (goto_state_of s x (Hs s HsC)) as [(s' & Eg & Hw' & Hr' & Hrd & Hst & Hne')|[Hno Hng]].
          + assert (Hs' : s' <> []).
            { apply Hne'. destruct Hne as (p & d & k & Hm). exists p, d, k. apply (move_ext g _ _ x Hr). exact Hm. }
            assert (Hrep : represents s' (clo g (F_code g) (move g I x))).
            { intros p d k. rewrite (Hr' p d k). apply clo_ext. apply move_ext, Hr. }
            split.
            * exists s'. split; auto. destruct (is_contains C s') eqn:Ec; [apply is_contains_In, Ec|].
              exfalso. apply (in_nil (a := s')). apply Ht. split; [rewrite <- is_contains_In, Ec; discriminate|].
              split; auto. exists s, x. split; [exact HsC|]. split; [apply (move_token _ _ Hne)|]. split; [exact Eg|]. apply (Hst Hs').
            * apply (ready_ext g _ _ Hrep). exact Hrd.
          + exfalso. assert (Hx : In x (g_tokens g)) by (apply (move_token _ _ Hne)).
            unfold items_new in E. destruct (mapM (items_new_of g C) C) as [ll| |] eqn:Em; try discriminate.
            destruct (mapM_ok_inv _ _ _ Em _ HsC) as [r Er]. unfold items_new_of in Er.
            apply bind_ok in Er as (l2 & E2 & _). destruct (mapM_ok_inv _ _ _ E2 _ Hx) as [b Hb].
            apply bind_ok in Hb as (j & Ej & _). exact (Hno _ Ej). }
      split; [exact HC|]. split; [intros I HI; apply G, HI|intros I HI; apply G, HI].
    - right. destruct (items_new g C) as [temp|pn|] eqn:E; [destruct (Hno _ eq_refl)| |]; injection H as <-; split; auto; discriminate.
  Qed.

  Lemma initial_wf : wf_set initial.
  Proof.
    split; [split; [intros y []|exact I]|]. intros it las [E|[]]. injection E as <- <-.
    split; [split; [intros y []|exact I]|discriminate].
  Qed.
  Lemma initial_rep : represents initial init_set.
  Proof.
    intros p d k. unfold has, initial, init_set, EOF_IDX. split.
    - intros (las & [E|[]] & Hk). injection E as <- <- <-. destruct Hk as [<-|[]]. auto.
    - intros (-> & -> & ->). exists [0]. split; left; reflexivity.
  Qed.

  Lemma items_gen :
    (exists i0 C, items g = Ok C /\ closure g initial = Ok i0 /\ represents i0 (clo g (F_code g) init_set) /\ final i0 C) \/
    ((forall C, items g <> Ok C) /\ ~ Good).
  Proof using W.
    unfold items. pose proof (clo_ext g (F_code g) _ _ initial_rep) as He.
    destruct (closure_spec initial initial_wf) as [(i0 & E0 & Hw & Hr & Hd)|[H1 H2]].
    - rewrite E0. cbn [bind].
      assert (Hr0 : represents i0 (clo g (F_code g) init_set)) by (intros p d k; rewrite (Hr p d k); apply He).
      assert (Hd0 : ready g (has i0)) by (apply (ready_ext g _ _ Hr); exact Hd).
      assert (HC : CInv i0 [i0]).
      { split; [eauto|]. split; [constructor; [intros []|constructor]|].
        intros s [<-|[]]. split; auto. exists (clo g (F_code g) init_set). split; [constructor|auto]. }
      destruct (run_measure_nat (items_step g) (CInv i0) (fun C => 2 ^ pairs_count g - length C) (S (pairs_count g)) [i0]) as [r Er].
      + intros C C' HI E. destruct (items_step_inl _ _ _ HI E) as [HI' Hlt]. split; auto.
        pose proof HI' as (_ & Hn' & Hs'). pose proof (states_count _ Hn' Hs'). lia.
      + exact HC.
      + simpl. assert (2 ^ pairs_count g <> 0) by (apply Nat.pow_nonzero; discriminate). lia.
      + rewrite Er.
        pose proof (run_inv (items_step g) (CInv i0) (fun r => (exists C', r = Ok C' /\ final i0 C') \/ ((forall C', r <> Ok C') /\ ~ Good))
           (S (pairs_count g)) [i0]) as H. rewrite Er in H.
        destruct H as [(C & -> & HF)|[Hno Hng]]; auto.
        * intros C C' HI E. apply (items_step_inl _ _ _ HI E).
        * intros C r' HI E. apply (items_step_inr _ _ _ Hr0 Hd0 HI E).
        * left. exists i0, C. auto.
    - right. split.
      + intros C. destruct (closure g initial) as [i0| |]; [destruct (H1 _ eq_refl)|discriminate|discriminate].
      + intros HG. apply H2. apply (ready_ext g _ _ He). apply HG. constructor.
  Qed.

  Lemma items_div : items g = Diverge -> exists I p d k a B, lr I /\ I p d k /\ sym_at g p d (SNon B) /\
    nth_error (g_tokens g) k = Some a /\ first g (rest g p (S d) ++ [a]) = Diverge.
  Proof using W.
    unfold items. intros H. apply bind_div in H as [H|(i0 & E0 & H)].
    { destruct (closure_div_spec _ initial_wf H) as (p & d & k & a & B & H1 & H2).
      exists (clo g (F_code g) init_set), p, d, k, a, B. split; [constructor|]. split; auto.
      apply (clo_ext g (F_code g) _ _ initial_rep). exact H1. }
    pose proof (clo_ext g (F_code g) _ _ initial_rep) as He.
    destruct (closure_spec initial initial_wf) as [(i0' & E0' & Hw & Hr & Hd)|[H1 _]]; [|destruct (H1 _ E0)].
    rewrite E0 in E0'. injection E0' as <-.
    assert (HC : CInv i0 [i0]).
    { split; [eauto|]. split; [constructor; [intros []|constructor]|].
      intros s [<-|[]]. split; auto. exists (clo g (F_code g) init_set). split; [constructor|].
      intros p d k. rewrite (Hr p d k). apply He. }
    destruct (run_measure_nat (items_step g) (CInv i0) (fun C => 2 ^ pairs_count g - length C) (S (pairs_count g)) [i0]) as [r Er].
    - intros C C' HI E. destruct (items_step_inl _ _ _ HI E) as [HI' Hlt]. split; auto.
      pose proof HI' as (_ & Hn' & Hs'). pose proof (states_count _ Hn' Hs'). lia.
    - exact HC.
    - simpl. assert (2 ^ pairs_count g <> 0) by (apply Nat.pow_nonzero; discriminate). lia.
    - rewrite Er in H.
      pose proof (run_inv (items_step g) (CInv i0) (fun r => r = Diverge -> exists I p d k a B, lr I /\ I p d k /\ sym_at g p d (SNon B) /\
         nth_error (g_tokens g) k = Some a /\ first g (rest g p (S d) ++ [a]) = Diverge) (S (pairs_count g)) [i0]) as HR.
      rewrite Er in HR. apply HR; auto.
      + intros C C' HI E. apply (items_step_inl _ _ _ HI E).
      + intros C r' ((l & El) & Hn & Hs) E ->. unfold items_step in E.
        destruct (items_new g C) as [[|t temp]|pn|] eqn:En; try discriminate.
        unfold items_new in En. apply bind_div in En as [En|(x & _ & En)]; [|discriminate].
        apply mapM_div in En as (s & HsC & En). unfold items_new_of in En.
        apply bind_div in En as [En|(x & _ & En)]; [|discriminate].
        apply mapM_div in En as (x & Hx & En). apply bind_div in En as [En|(j & _ & En)]; [|discriminate].
        destruct (Hs s HsC) as (Hws & I & HI & HIr).
        destruct (goto_div s x Hws) as (p & d & k & a & B & H1 & H2); auto.
        { intros p d k Hk. apply HIr in Hk. destruct (lr_valid _ HI _ _ _ Hk) as (pr & Hp & _). eauto. }
        exists (clo g (F_code g) (move g I x)), p, d, k, a, B.
        pose proof (move_ext g _ _ x HIr) as Hm.
        split; [|split; [apply (clo_ext g (F_code g) _ _ Hm); exact H1|exact H2]].
        apply lr_goto; auto.
        assert (G : forall p d k, clo g (F_code g) (move g (has s) x) p d k -> exists p d k, move g (has s) x p d k).
        { clear. intros p d k. induction 1; eauto. }
        destruct (G _ _ _ H1) as (p' & d' & k' & Hm'). exists p', d', k'. apply Hm, Hm'.
  Qed.
End Sets.
