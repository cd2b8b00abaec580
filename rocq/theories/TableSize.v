(** Grammars with exponentially many LALR states: proofs for PropsSize.v. *)
From Verif Require Import Base Grammar GrammarSpec GrammarProofs First FirstProofs Item ItemSpec ItemProofs ItemPlain
  Table TableSpec TableFacts Parse ParseSpec Lex LexGrammar LexGrammarProofs ViableProofs.

(** ** The grammars *)

Definition nX : str := [88%N].
Definition nA : str := [65%N].
Definition nB : str := [66%N].
Definition nY (i : nat) : str := repeat 89%N (S i).
Definition body (l : list isym) : abody := ABody l [].

(** X -> A X | B X | A Y_k;  Y_(i+1) -> A Y_i | B Y_i;  Y_0 -> "c";  A -> "a";  B -> "b": the words over
    [a] and [b] with an [a] before the last [k] letters, and a [c]. *)
Definition kth_ast (k : nat) : list aprod :=
  AProd nX [body [INon nA; INon nX]; body [INon nB; INon nX]; body [INon nA; INon (nY k)]] true [] ::
  map (fun i => AProd (nY (S i)) [body [INon nA; INon (nY i)]; body [INon nB; INon (nY i)]] false []) (seq 0 k) ++
  [AProd (nY 0) [body [IStr [99%N]]] false []; AProd nA [body [IStr [97%N]]] false []; AProd nB [body [IStr [98%N]]] false []].

Lemma nY_inj i j : nY i = nY j -> i = j.
Proof. intros E. apply (f_equal (@length N)) in E. unfold nY in E. rewrite !repeat_length in E. lia. Qed.

(** The rules, by number. *)
Definition kth_rules (k : nat) : list (str * list sym) :=
  (aug_name nX, [SNon nX]) ::
  (nX, [SNon nA; SNon nX]) :: (nX, [SNon nB; SNon nX]) :: (nX, [SNon nA; SNon (nY k)]) ::
  flat_map (fun i => [(nY (S i), [SNon nA; SNon (nY i)]); (nY (S i), [SNon nB; SNon (nY i)])]) (seq 0 k) ++
  [(nY 0, [SStr [99%N]]); (nA, [SStr [97%N]]); (nB, [SStr [98%N]])].

(** ... and as a relation. *)
Inductive kth_rule (k : nat) : str -> list sym -> Prop :=
| kr_start : kth_rule k (aug_name nX) [SNon nX]
| kr_xa : kth_rule k nX [SNon nA; SNon nX]
| kr_xb : kth_rule k nX [SNon nB; SNon nX]
| kr_xy : kth_rule k nX [SNon nA; SNon (nY k)]
| kr_ya i : i < k -> kth_rule k (nY (S i)) [SNon nA; SNon (nY i)]
| kr_yb i : i < k -> kth_rule k (nY (S i)) [SNon nB; SNon (nY i)]
| kr_c : kth_rule k (nY 0) [SStr [99%N]]
| kr_a : kth_rule k nA [SStr [97%N]]
| kr_b : kth_rule k nB [SStr [98%N]].

Lemma kth_rules_In k n b : In (n, b) (kth_rules k) <-> kth_rule k n b.
Proof.
  unfold kth_rules. split.
  - intros H. repeat (destruct H as [E|H]; [injection E as <- <-; constructor|]). apply in_app_or in H as [H|H].
    + apply in_flat_map in H as (i & Hi & H). apply in_seq in Hi.
      repeat (destruct H as [E|H]; [injection E as <- <-; constructor; lia|]). destruct H.
    + repeat (destruct H as [E|H]; [injection E as <- <-; constructor|]). destruct H.
  - intros H. destruct H as [| | | |i Hi|i Hi| | |]; try (simpl; tauto); do 4 right; apply in_or_app; try (right; simpl; tauto);
      left; apply in_flat_map; exists i; (split; [apply in_seq; lia|simpl; tauto]).
Qed.

Ltac names := try (exfalso; match goal with
  | H : nX = nY _ |- _ => discriminate H | H : nY _ = nX |- _ => discriminate H
  | H : nA = nY _ |- _ => discriminate H | H : nY _ = nA |- _ => discriminate H
  | H : nB = nY _ |- _ => discriminate H | H : nY _ = nB |- _ => discriminate H end).

Lemma kth_rules_nodup k : NoDup (kth_rules k).
Proof.
  unfold kth_rules.
  assert (Hin : forall n b, In (n, b) (flat_map (fun i => [(nY (S i), [SNon nA; SNon (nY i)]); (nY (S i), [SNon nB; SNon (nY i)])]) (seq 0 k)) ->
    exists i, n = nY (S i) /\ length b = 2).
  { intros n b H. apply in_flat_map in H as (i & _ & [E|[E|[]]]); injection E as <- <-; eauto. }
  assert (Hnot : forall n b, ~ In (n, b) (flat_map (fun i => [(nY (S i), [SNon nA; SNon (nY i)]); (nY (S i), [SNon nB; SNon (nY i)])]) (seq 0 k) ++
     [(nY 0, [SStr [99%N]]); (nA, [SStr [97%N]]); (nB, [SStr [98%N]])]) \/ (exists i, n = nY i) \/ n = nA \/ n = nB).
  { intros n b. destruct (in_dec (fun x y => ord_dec x y) (n, b) (flat_map (fun i => [(nY (S i), [SNon nA; SNon (nY i)]); (nY (S i), [SNon nB; SNon (nY i)])]) (seq 0 k) ++
     [(nY 0, [SStr [99%N]]); (nA, [SStr [97%N]]); (nB, [SStr [98%N]])])) as [H|H]; auto. right.
    apply in_app_or in H as [H|[E|[E|[E|[]]]]]; try (injection E as <- <-; eauto). apply Hin in H as (i & -> & _). eauto. }
  assert (Hx : forall b, ~ In (nX, b) (flat_map (fun i => [(nY (S i), [SNon nA; SNon (nY i)]); (nY (S i), [SNon nB; SNon (nY i)])]) (seq 0 k) ++
     [(nY 0, [SStr [99%N]]); (nA, [SStr [97%N]]); (nB, [SStr [98%N]])])).
  { intros b. destruct (Hnot nX b) as [H|[[i H]|[H|H]]]; auto; discriminate. }
  constructor; [|constructor; [|constructor; [|constructor]]].
  - intros [E|[E|[E|H]]]; try discriminate. destruct (Hnot (aug_name nX) [SNon nX]) as [H'|[[i H']|[H'|H']]]; auto; discriminate.
  - intros [E|[E|H]]; try discriminate. exact (Hx _ H).
  - intros [E|H]; try discriminate. exact (Hx _ H).
  - apply Hx.
  - clear Hnot Hx. assert (Hd : forall l, NoDup l -> NoDup (flat_map (fun i => [(nY (S i), [SNon nA; SNon (nY i)]); (nY (S i), [SNon nB; SNon (nY i)])]) l)).
    { induction 1 as [|i l Hi Hl IH]; cbn [flat_map app]; [constructor|].
      assert (Hno : forall b, ~ In (nY (S i), b) (flat_map (fun i => [(nY (S i), [SNon nA; SNon (nY i)]); (nY (S i), [SNon nB; SNon (nY i)])]) l)).
      { intros b H. apply in_flat_map in H as (j & Hj & [E|[E|[]]]); injection E as E _; apply (f_equal (@length N)) in E;
          rewrite !repeat_length in E; assert (i = j) by lia; subst; auto. }
      constructor; [|constructor; auto]. intros [E|H]; [discriminate|]. exact (Hno _ H). }
    specialize (Hd _ (seq_NoDup k 0)). revert Hd Hin. generalize (flat_map (fun i => [(nY (S i), [SNon nA; SNon (nY i)]); (nY (S i), [SNon nB; SNon (nY i)])]) (seq 0 k)).
    intros l. induction 1 as [|[n b] l Hi Hl IH]; intros Hin; cbn [app].
    + repeat (constructor; [cbn [In]; intuition discriminate|]). constructor.
    + constructor; [|apply IH; intros; apply Hin; right; auto]. intros H. apply in_app_or in H as [H|[E|[E|[E|[]]]]]; [auto|..];
        injection E as <- <-; destruct (Hin _ _ (or_introl eq_refl)) as (i & _ & H); discriminate H.
Qed.

Lemma kth_prods k : exists g, grammar_from_ast (kth_ast k) = Ok g /\ wf_grammar g nX /\
  map (fun p => (p_name p, p_syms p)) (g_prods g) = kth_rules k.
Proof.
  assert (E : exists g, grammar_from_ast (kth_ast k) = Ok g).
  { unfold grammar_from_ast. change (find ap_start (kth_ast k)) with (Some (hd (AProd nX [] true []) (kth_ast k))). cbv beta iota zeta.
    destruct (fold_left add_prod _ _) as [names prods]. eauto. }
  destruct E as [g E]. exists g. split; auto. destruct (grammar_from_ast_ok _ _ E) as (st & Hf & W & Hs & Hp). injection Hf as <-. split; auto.
  rewrite Hp. unfold kth_ast, kth_rules. cbn [flat_map ap_bodies map app]. rewrite flat_map_app, map_app.
  do 5 f_equal. rewrite !flat_map_concat_map, concat_map, !map_map. reflexivity.
Qed.

Lemma nth_error_ext {A} (l : list A) : forall m, (forall i, nth_error l i = nth_error m i) -> l = m.
Proof.
  induction l as [|x l IH]; intros [|y m] H; auto; try (specialize (H 0); discriminate).
  f_equal; [specialize (H 0); injection H; auto|]. apply IH. intros i. exact (H (S i)).
Qed.

Section Kth.
  Variables (k : nat) (g : grammar).
  Hypothesis W : wf_grammar g nX.
  Hypothesis Hr : map (fun p => (p_name p, p_syms p)) (g_prods g) = kth_rules k.

  (** Rule number [p]. *)
  Definition idx (p : nat) (n : str) (b : list sym) : Prop := nth_error (kth_rules k) p = Some (n, b).

  Lemma idx_prod p n b : idx p n b <-> exists pr, nth_error (g_prods g) p = Some pr /\ p_name pr = n /\ p_syms pr = b.
  Proof.
    unfold idx. rewrite <- Hr, nth_error_map. destruct (nth_error (g_prods g) p) as [pr|]; simpl.
    - split; [intros E; injection E as <- <-; eauto|intros (q & E & <- & <-); injection E as <-; reflexivity].
    - split; [discriminate|intros (q & E & _); discriminate].
  Qed.
  Lemma idx_rule p n b : idx p n b -> kth_rule k n b.
  Proof. intros H. apply kth_rules_In. eapply nth_error_In; eauto. Qed.
  Lemma rule_idx n b : kth_rule k n b -> exists p, idx p n b.
  Proof. intros H. apply kth_rules_In in H. apply In_nth_error in H. exact H. Qed.
  Lemma idx_fun p n b n' b' : idx p n b -> idx p n' b' -> n = n' /\ b = b'.
  Proof. unfold idx. intros H1 H2. rewrite H1 in H2. injection H2 as <- <-. auto. Qed.
  Lemma idx_inj p q n b : idx p n b -> idx q n b -> p = q.
  Proof.
    intros H1 H2. apply (proj1 (NoDup_nth_error (kth_rules k)) (kth_rules_nodup k)); [|unfold idx in *; congruence].
    apply nth_error_Some. unfold idx in H1. congruence.
  Qed.
  Lemma sym_idx p d x : sym_at g p d x <-> exists n b, idx p n b /\ nth_error b d = Some x.
  Proof.
    split.
    - intros (pr & Hp & Hd). exists (p_name pr), (p_syms pr). split; auto. apply idx_prod. eauto.
    - intros (n & b & Hi & Hd). apply idx_prod in Hi as (pr & Hp & _ & <-). exists pr. auto.
  Qed.
  Lemma complete_idx p d : complete g p d <-> exists n b, idx p n b /\ d = length b.
  Proof.
    split.
    - intros (pr & Hp & Hd). exists (p_name pr), (p_syms pr). split; auto. apply idx_prod. eauto.
    - intros (n & b & Hi & Hd). apply idx_prod in Hi as (pr & Hp & _ & <-). exists pr. auto.
  Qed.
  Lemma idx0 : idx 0 (aug_name nX) [SNon nX].
  Proof. reflexivity. Qed.

  (** ** The tables are built *)

  Lemma rule_has n b : kth_rule k n b -> has_rule g n.
  Proof. intros H. destruct (rule_idx _ _ H) as [p Hp]. apply idx_prod in Hp as (pr & Hp & En & _). exists pr. split; auto. eapply nth_error_In; eauto. Qed.

  Lemma names_have n b B : kth_rule k n b -> In (SNon B) b -> has_rule g B.
  Proof.
    assert (HY : forall i, i <= k -> has_rule g (nY i)).
    { intros [|i] Hi; [eapply rule_has, kr_c|eapply rule_has, (kr_ya k i); lia]. }
    pose proof (rule_has _ _ (kr_xa k)) as HX. pose proof (rule_has _ _ (kr_a k)) as HA. pose proof (rule_has _ _ (kr_b k)) as HB.
    intros [| | | |i Hi|i Hi| | |] H; repeat (destruct H as [E|H]; [injection E as <- || discriminate E; auto; apply HY; lia|]); destruct H.
  Qed.

  Lemma kth_eps_free : eps_free g.
  Proof.
    intros p Hp. apply In_nth_error in Hp as [i Hi]. assert (H : idx i (p_name p) (p_syms p)) by (apply idx_prod; eauto).
    apply idx_rule in H. inversion H as [En Eb|En Eb|En Eb|En Eb|j Hj En Eb|j Hj En Eb|En Eb|En Eb|En Eb]; split; try discriminate; cbn [In]; intuition discriminate.
  Qed.

  (** The leftmost symbols: at most two steps. *)
  Definition rank (x : sym) : nat :=
    match x with
    | SNon n => if ord_dec n (aug_name nX) then 3 else if ord_dec n nA then 1 else if ord_dec n nB then 1 else 2
    | _ => 0
    end.
  Lemma rank_rule n y b : kth_rule k n (y :: b) -> rank y < rank (SNon n).
  Proof.
    intros H. inversion H as [En Eb|En Eb|En Eb|En Eb|i Hi En Eb|i Hi En Eb|En Eb|En Eb|En Eb]; subst; unfold rank;
      repeat match goal with |- context [ord_dec ?a ?c] => destruct (ord_dec a c) end; try congruence; try discriminate; lia.
  Qed.
  Lemma rule_kth n b : rule g n b -> kth_rule k n b.
  Proof. intros (p & Hp & En & Eb). apply In_nth_error in Hp as [i Hi]. apply (idx_rule i). apply idx_prod. eauto. Qed.
  Lemma lms_rank x y : lms g x y -> rank y <= rank x.
  Proof. induction 1 as [x|A y b z R _ IH]; auto. apply rule_kth, rank_rule in R. lia. Qed.
  Lemma lms_has x y : lms g x y -> (forall B, x = SNon B -> has_rule g B) -> forall B, y = SNon B -> has_rule g B.
  Proof. induction 1 as [x|A y b z R _ IH]; auto. intros _. apply IH. intros B ->. apply rule_kth in R. eapply names_have; [exact R|left; auto]. Qed.

  Lemma kth_items : exists lr0, items g = Ok lr0.
  Proof.
    apply (items_ok_iff g nX W kth_eps_free). intros p pr d B _ Hp Hd.
    assert (H : kth_rule k (p_name pr) (p_syms pr)) by (apply (idx_rule p); apply idx_prod; eauto).
    split; [eapply names_have; [exact H|eapply nth_error_In; eauto]|]. intros x Hx A Hl. split.
    - apply (lms_has _ _ Hl); auto. intros C ->. eapply names_have; [exact H|eapply nth_error_In; eauto].
    - intros Hrec. apply (left_recursive_lms g kth_eps_free) in Hrec as (y & b & R & Hy). apply rule_kth, rank_rule in R. apply lms_rank in Hy. lia.
  Qed.

  (** What every LR(1) state looks like: after some word over [A] and [B], initial items and items with
      the dot behind the last letter; otherwise one complete item. *)
  Definition letter (x : sym) : Prop := x = SNon nA \/ x = SNon nB.
  Definition word_item (o : option sym) (n : str) (b : list sym) (d : nat) : Prop :=
    (d = 0 /\ (n <> aug_name nX \/ o = None)) \/ (d = 1 /\ exists x y, o = Some x /\ b = [x; y]).
  Definition word_state (I : lrset) : Prop :=
    exists o, (forall x, o = Some x -> letter x) /\ forall p d j, I p d j -> exists n b, idx p n b /\ word_item o n b d.
  Definition one_state (I : lrset) : Prop := exists p d, complete g p d /\ forall p' d' j, I p' d' j -> p' = p /\ d' = d.

  Lemma clo_word o (K : lrset) : (forall p d j, K p d j -> exists n b, idx p n b /\ word_item o n b d) ->
    forall p d j, clo g (F_std g) K p d j -> exists n b, idx p n b /\ word_item o n b d.
  Proof.
    intros HK p d j. induction 1 as [p d j H|p d j a q pq c j' _ IH Hs Hq _ _ _]; [eauto|].
    exists (p_name pq), (p_syms pq). split; [apply idx_prod; eauto|]. left. split; auto. left. intros E. rewrite E in Hs.
    apply sym_idx in Hs as (n & b & Hi & Hd). apply idx_rule in Hi. apply nth_error_In in Hd.
    destruct Hi as [| | | |i Hi|i Hi| | |]; repeat (destruct Hd as [Hd|Hd]; [discriminate Hd|]); destruct Hd.
  Qed.

  Lemma clo_one (K : lrset) p d : complete g p d -> (forall p' d' j, K p' d' j -> p' = p /\ d' = d) ->
    forall p' d' j, clo g (F_std g) K p' d' j -> p' = p /\ d' = d.
  Proof.
    intros (pr & Hp & Hd) HK p' d' j. induction 1 as [p' d' j H|p' d' j a q pq c j' _ IH Hs Hq _ _ _]; eauto.
    exfalso. destruct IH as [-> ->]. destruct Hs as (pr' & Hp' & Hs). rewrite Hp in Hp'. injection Hp' as <-.
    assert (d < length (p_syms pr)) by (apply nth_error_Some; congruence). lia.
  Qed.

  Lemma first_letter p n b x : idx p n b -> nth_error b 0 = Some x -> letter x -> exists y, b = [x; y].
  Proof.
    intros Hi Hx Hl. apply idx_rule in Hi. destruct Hi as [| | | |i Hi|i Hi| | |]; simpl in Hx; injection Hx as <-; eauto; destruct Hl as [E|E]; discriminate.
  Qed.
  Lemma second_letter p n x y z : idx p n [x; y] -> letter z -> y <> z.
  Proof. intros Hi Hl ->. apply idx_rule in Hi. inversion Hi as [| | | |i Hi' En Eb|i Hi' En Eb| | |]; subst; destruct Hl; discriminate. Qed.
  Lemma not_letter p n b x : idx p n b -> nth_error b 0 = Some x -> ~ letter x -> b = [x].
  Proof.
    intros Hi Hx Hl. apply idx_rule in Hi. destruct Hi as [| | | |i Hi|i Hi| | |]; simpl in Hx; injection Hx as <-; auto; destruct Hl; unfold letter; auto.
  Qed.
  Lemma one_unique p q n m x : idx p n [x] -> idx q m [x] -> p = q.
  Proof.
    intros Hi Hj. assert (n = m).
    { apply idx_rule in Hi. apply idx_rule in Hj. inversion Hi; subst; inversion Hj; subst; congruence. }
    subst. eapply idx_inj; eauto.
  Qed.
  Lemma two_unique p q n m x y : idx p n [x; y] -> idx q m [x; y] -> p = q.
  Proof.
    intros Hi Hj. assert (n = m).
    { apply idx_rule in Hi. apply idx_rule in Hj.
      inversion Hi as [| | | |i Hi' En Eb|i Hi' En Eb| | |]; subst; inversion Hj as [| | | |j Hj' En' Eb'|j Hj' En' Eb'| | |]; subst; auto;
        match goal with H : repeat 89%N _ = repeat 89%N _ |- _ => apply (f_equal (@length N)) in H; rewrite !repeat_length in H end;
        solve [lia|subst; auto]. }
    subst. eapply idx_inj; eauto.
  Qed.

  Lemma move_one_start p n x : idx p n [x] -> x = SNon nX -> n = aug_name nX.
  Proof. intros Hi ->. apply idx_rule in Hi. inversion Hi; auto. Qed.

  Lemma second_name p n x y : idx p n [x; y] -> y = SNon nX \/ exists i, y = SNon (nY i).
  Proof. intros Hi. apply idx_rule in Hi. inversion Hi; subst; eauto. Qed.
  Lemma one_name p n x : idx p n [x] -> x = SNon nX \/ terminal x.
  Proof. intros Hi. apply idx_rule in Hi. inversion Hi; subst; auto; right; intros n' E; discriminate. Qed.

  Lemma states_shape I : lr_state g (F_std g) I -> word_state I \/ one_state I.
  Proof.
    induction 1 as [|I x H IH (p0 & d0 & j0 & Hm)].
    - left. exists None. split; [discriminate|]. apply clo_word. intros p d j (-> & -> & ->). exists (aug_name nX), [SNon nX]. split; [apply idx0|].
      left. auto.
    - destruct IH as [(o & Ho & HI)|(p & d & Hc & HI)].
      + assert (Hl : letter x \/ ~ letter x).
        { unfold letter. destruct (ord_dec x (SNon nA)); auto. destruct (ord_dec x (SNon nB)); auto. right. intros [E|E]; auto. }
        destruct Hl as [Hl|Hl].
        * left. exists (Some x). split; [intros y E; injection E as <-; auto|]. apply clo_word. intros p d j (d' & -> & H1 & H2).
          apply HI in H1 as (n & b & Hi & Hw). exists n, b. split; auto. apply sym_idx in H2 as (n' & b' & Hi' & H2).
          destruct (idx_fun _ _ _ _ _ Hi Hi') as [<- <-]. destruct Hw as [[-> _]|(-> & y & z & _ & ->)].
          -- right. split; auto. destruct (first_letter _ _ _ _ Hi H2 Hl) as [y ->]. eauto.
          -- exfalso. injection H2 as E. eapply second_letter; eauto.
        * right. exists p0, d0.
          assert (Hmv : forall p d j, move g I x p d j -> exists n b, idx p n b /\ ((d = 1 /\ b = [x] /\ (n <> aug_name nX \/ o = None)) \/ (d = 2 /\ exists y, o = Some y /\ b = [y; x]))).
          { intros p d j (d' & -> & H1 & H2). apply HI in H1 as (n & b & Hi & Hw). exists n, b. split; auto.
            apply sym_idx in H2 as (n' & b' & Hi' & H2). destruct (idx_fun _ _ _ _ _ Hi Hi') as [<- <-].
            destruct Hw as [[-> Hn]|(-> & y & z & -> & ->)].
            - left. split; auto. split; auto. eapply not_letter; eauto.
            - right. split; auto. injection H2 as ->. eauto. }
          assert (Hc : complete g p0 d0).
          { apply complete_idx. destruct (Hmv _ _ _ Hm) as (n & b & Hi & [(-> & -> & _)|(-> & y & _ & ->)]); eauto. }
          split; auto. apply clo_one; auto. intros p d j H1.
          destruct (Hmv _ _ _ Hm) as (n & b & Hi & Hb). destruct (Hmv _ _ _ H1) as (n' & b' & Hi' & Hb').
          destruct Hb as [(-> & -> & Hn)|(-> & y & Hy & ->)]; destruct Hb' as [(-> & -> & Hn')|(-> & y' & Hy' & ->)].
          -- split; auto. eapply one_unique; eauto.
          -- exfalso. destruct (second_name _ _ _ _ Hi') as [->|[i ->]]; destruct (one_name _ _ _ Hi) as [E|E]; try discriminate; try (exfalso; exact (E _ eq_refl)).
             destruct Hn as [Hn|Hn]; [|congruence]. apply Hn. eapply move_one_start; eauto.
          -- exfalso. destruct (second_name _ _ _ _ Hi) as [->|[i ->]]; destruct (one_name _ _ _ Hi') as [E|E]; try discriminate; try (exfalso; exact (E _ eq_refl)).
             destruct Hn' as [Hn|Hn]; [|congruence]. apply Hn. eapply move_one_start; eauto.
          -- split; auto. rewrite Hy in Hy'. injection Hy' as <-. eapply two_unique; eauto.
      + exfalso. destruct Hm as (d' & -> & H1 & H2). apply HI in H1 as [-> ->]. destruct Hc as (pr & Hp & ->). destruct H2 as (pr' & Hp' & H2).
        rewrite Hp in Hp'. injection Hp' as <-. assert (length (p_syms pr) < length (p_syms pr)) by (apply nth_error_Some; congruence). lia.
  Qed.

  Lemma kth_no_conflict I : lr_state g (F_std g) I -> forall p d p' d' j,
    wants g (F_std g) (lalr_of g (F_std g) I) p d j -> wants g (F_std g) (lalr_of g (F_std g) I) p' d' j -> (p, d) = (p', d').
  Proof.
    intros HI p d p' d' j H1 H2.
    assert (Hin : forall p d j, lalr_of g (F_std g) I p d j -> exists j', I p d j').
    { intros q e l (I' & _ & Hs & Hx). apply Hs. eauto. }
    assert (Hw : forall p d, wants g (F_std g) (lalr_of g (F_std g) I) p d j -> (complete g p d \/ exists x, sym_at g p d x /\ terminal x /\ tok g j x) /\ exists j', I p d j').
    { intros q e [[Hc Hx]|(x & Hs & Ht & Hk & (l & Hl) & _)]; split; eauto. }
    apply Hw in H1 as (H1 & j1 & Hj1). apply Hw in H2 as (H2 & j2 & Hj2). clear Hin Hw.
    destruct (states_shape _ HI) as [(o & Ho & HS)|(q & e & _ & HS)].
    - assert (Hx : forall p d l, I p d l -> (complete g p d \/ exists x, sym_at g p d x /\ terminal x /\ tok g j x) -> d = 0 /\ exists n x, idx p n [x] /\ tok g j x).
      { intros q e l Hq Hd. apply HS in Hq as (n & b & Hi & Hwi). destruct Hd as [Hc|(x & Hs & Ht & Hk)].
        - exfalso. apply complete_idx in Hc as (n' & b' & Hi' & ->). destruct (idx_fun _ _ _ _ _ Hi Hi') as [<- <-].
          destruct Hwi as [[E _]|(E & x & y & _ & ->)]; [|discriminate]. destruct b; [|discriminate]. apply idx_rule in Hi. inversion Hi.
        - apply sym_idx in Hs as (n' & b' & Hi' & Hs). destruct (idx_fun _ _ _ _ _ Hi Hi') as [<- <-].
          destruct Hwi as [[-> _]|(-> & y & z & _ & ->)].
          + split; auto. exists n, x. split; auto. rewrite <- (not_letter _ _ _ _ Hi Hs); auto. intros [->| ->]; exact (Ht _ eq_refl).
          + exfalso. injection Hs as ->. destruct (second_name _ _ _ _ Hi) as [->|[i ->]]; exact (Ht _ eq_refl). }
      destruct (Hx _ _ _ Hj1 H1) as (-> & n & x & Hi & [Hk _]). destruct (Hx _ _ _ Hj2 H2) as (-> & n' & x' & Hi' & [Hk' _]).
      rewrite Hk in Hk'. injection Hk' as <-. f_equal. eapply one_unique; eauto.
    - apply HS in Hj1 as [-> ->]. apply HS in Hj2 as [-> ->]. reflexivity.
  Qed.

  (** ** There are many states *)

  Notation F := (F_std g).
  Definition sym_of (b : bool) : sym := if b then SNon nA else SNon nB.
  Definition syms_of (w : list bool) : list sym := map sym_of w.
  (** A non-terminal expected after [w]; and expected at the end of the input. *)
  Definition act (w : list bool) (y : str) : Prop := exists p d j, lr_at g (syms_of w) p d j /\ sym_at g p d (SNon y).
  Definition act0 (w : list bool) (y : str) : Prop :=
    exists p d, lr_at g (syms_of w) p d 0 /\ sym_at g p d (SNon y) /\ rest g p (S d) = [].

  Lemma act0_act w y : act0 w y -> act w y.
  Proof. intros (p & d & H1 & H2 & _). exists p, d, 0. auto. Qed.
  Lemma lr_at_clo u : exists K, lr_at g u = clo g F K.
  Proof. destruct u as [|x u _] using rev_ind; [eexists; reflexivity|]. rewrite lr_at_snoc. eauto. Qed.
  Lemma rest_idx p n b d : idx p n b -> rest g p d = skipn d b.
  Proof. intros H. apply idx_prod in H as (pr & Hp & _ & <-). unfold rest. rewrite Hp. reflexivity. Qed.

  Lemma act0_close w y q b : act0 w y -> idx q y b -> lr_at g (syms_of w) q 0 0.
  Proof.
    intros (p & d & H1 & H2 & H3) Hq. destruct (lr_at_clo (syms_of w)) as [K E]. rewrite E in *.
    apply idx_prod in Hq as (pq & Hq & En & _). pose proof (token_eof g nX W) as Ht. unfold get_token in Ht.
    eapply (clo_rule g F K p d 0 SEof q pq SEof 0); eauto.
    - rewrite En. exact H2.
    - rewrite H3. split; [intros n E'; discriminate|]. exists []. constructor.
    - split; auto. intros j Hj. lia.
  Qed.
  Lemma act0_step w y b z : act0 w y -> kth_rule k y [sym_of b; SNon z] -> act0 (w ++ [b]) z.
  Proof.
    intros H R. destruct (rule_idx _ _ R) as [q Hq]. pose proof (act0_close _ _ _ _ H Hq) as Hc. exists q, 1. split; [|split].
    - unfold syms_of. rewrite map_app. cbn [map]. rewrite lr_at_snoc. apply clo_base. exists 0. split; auto. split; auto. apply sym_idx. eauto.
    - apply sym_idx. exists y, [sym_of b; SNon z]. auto.
    - rewrite (rest_idx _ _ _ _ Hq). reflexivity.
  Qed.

  Lemma act0_X w : act0 w nX.
  Proof.
    induction w as [|b w IH] using rev_ind.
    - exists 0, 0. split; [apply clo_base; repeat split|]. split; [apply sym_idx; eauto using idx0|]. rewrite (rest_idx _ _ _ _ idx0). reflexivity.
    - apply (act0_step _ _ _ _ IH). destruct b; constructor.
  Qed.
  Lemma act0_Y w : forall i, i <= k -> nth_error (rev w) (k - i) = Some true -> act0 w (nY i).
  Proof.
    induction w as [|b w IH] using rev_ind; intros i Hi H; [destruct (k - i); discriminate|].
    rewrite rev_app_distr in H. cbn [rev app] in H. destruct (k - i) as [|m] eqn:Em.
    - injection H as ->. assert (i = k) as -> by lia. apply (act0_step _ _ true _ (act0_X w)). constructor.
    - cbn [nth_error] in H. assert (Hi' : act0 w (nY (S i))) by (apply IH; [lia|replace (k - S i) with m by lia; auto]).
      apply (act0_step _ _ _ _ Hi'). destruct b; constructor; lia.
  Qed.

  Lemma start_item w p j : lr_at g (syms_of w) p 0 j -> forall n b, idx p n b -> n <> aug_name nX -> act w n.
  Proof.
    intros H n b Hi Hn. destruct w as [|l w _] using rev_ind.
    - assert (G : forall p d j, clo g F init_set p d j -> d = 0 -> forall n b, idx p n b -> n <> aug_name nX -> exists p' d' j', clo g F init_set p' d' j' /\ sym_at g p' d' (SNon n)).
      { clear -Hr. intros p d j Hc _ n b Hi Hn. destruct Hc as [p d j Hk|p d j a q pq c j' Hc Hs Hq _ _ _].
        - exfalso. destruct Hk as (-> & _). destruct (idx_fun _ _ _ _ _ Hi idx0) as [-> _]. auto.
        - apply idx_prod in Hi as (pr & Hp & <- & _). rewrite Hq in Hp. injection Hp as <-. eauto. }
      exact (G _ _ _ H eq_refl _ _ Hi Hn).
    - unfold act. unfold syms_of in *. rewrite map_app in *. cbn [map] in *. rewrite lr_at_snoc in *. remember 0 as d eqn:Ed.
      destruct H as [p d j Hk|p d j a q pq c j' Hc Hs Hq _ _ _].
      + destruct Hk as (d' & E & _). subst. discriminate.
      + apply idx_prod in Hi as (pr & Hp & <- & _). rewrite Hq in Hp. injection Hp as <-. eauto.
  Qed.

  Lemma act_Y w : forall i, act w (nY i) -> i <= k /\ nth_error (rev w) (k - i) = Some true.
  Proof.
    induction w as [|l w IH] using rev_ind; intros i (p & d & j & H & Hs).
    - exfalso. apply sym_idx in Hs as (n & b & Hi & Hd).
      assert (d = 0).
      { clear -H. cbv in H. destruct H as [p d j (_ & Hd & _)|]; auto. }
      subst d. apply idx_rule in Hi. destruct Hi as [| | | |m Hm|m Hm| | |]; discriminate Hd.
    - unfold syms_of in H. rewrite map_app in H. cbn [map] in H. rewrite lr_at_snoc in H.
      apply sym_idx in Hs as (n & b & Hi & Hd).
      assert (Hb : exists x, d = 1 /\ b = [x; SNon (nY i)] /\ ((n = nX /\ i = k /\ x = SNon nA) \/ (n = nY (S i) /\ i < k))).
      { pose proof Hi as R. apply idx_rule in R. destruct R as [| | | |m Hm|m Hm| | |]; destruct d as [|[|[|d]]]; simpl in Hd; try discriminate Hd.
        - injection Hd as E. apply (f_equal (@length N)) in E. rewrite !repeat_length in E. subst. eauto 10.
        - injection Hd as E. apply (f_equal (@length N)) in E. rewrite !repeat_length in E. subst. eauto 10.
        - injection Hd as E. apply (f_equal (@length N)) in E. rewrite !repeat_length in E. subst. eauto 10. }
      destruct Hb as (x & -> & -> & Hn).
      assert (Hm : move g (lr_at g (map sym_of w)) (sym_of l) p 1 j).
      { remember 1 as e eqn:Ee. destruct H as [p e j Hk|]; auto. discriminate. }
      destruct Hm as (d' & E & Hp & Hx). injection E as <-. apply sym_idx in Hx as (n' & b' & Hi' & Hx).
      destruct (idx_fun _ _ _ _ _ Hi Hi') as [<- <-]. injection Hx as ->. rewrite rev_app_distr. cbn [rev app].
      destruct Hn as [(-> & -> & E)|[-> Hlt]].
      + rewrite Nat.sub_diag. split; auto. destruct l; [reflexivity|discriminate E].
      + destruct (IH (S i)) as [H1 H2]. { apply (start_item _ _ _ Hp _ _ Hi). discriminate. }
        split; [lia|]. replace (k - i) with (S (k - S i)) by lia. exact H2.
  Qed.

  Lemma same_core_act w w' : same_core (lr_at g (syms_of w)) (lr_at g (syms_of w')) -> forall y, act w y -> act w' y.
  Proof. intros Hs y (p & d & j & H & Hy). destruct (proj1 (Hs p d) (ex_intro _ j H)) as [j' Hj']. exists p, d, j'. auto. Qed.

  Lemma same_core_word w w' : length w = S k -> length w' = S k -> same_core (lr_at g (syms_of w)) (lr_at g (syms_of w')) -> w = w'.
  Proof.
    intros L L' Hs.
    assert (Hs' : same_core (lr_at g (syms_of w')) (lr_at g (syms_of w))) by (intros p d; symmetry; apply Hs).
    assert (G : forall v v', length v = S k -> length v' = S k -> (forall y, act v y -> act v' y) -> forall m, nth_error (rev v) m = Some true -> nth_error (rev v') m = Some true).
    { intros v v' Hv Hv' Ha m Hm. assert (Hlt : m < length (rev v)) by (apply nth_error_Some; congruence). rewrite rev_length, Hv in Hlt.
      assert (E : m = k - (k - m)) by lia. rewrite E in Hm. apply act0_Y in Hm; [|lia]. apply act0_act, Ha, act_Y in Hm as [_ Hm]. rewrite E. exact Hm. }
    rewrite <- (rev_involutive w), <- (rev_involutive w'). f_equal. apply nth_error_ext. intros m.
    pose proof (G w w' L L' (same_core_act _ _ Hs) m) as G1. pose proof (G w' w L' L (same_core_act _ _ Hs') m) as G2.
    destruct (nth_error (rev w) m) as [[|]|] eqn:E1; destruct (nth_error (rev w') m) as [[|]|] eqn:E2; auto; try (discriminate G1; auto); try (discriminate G2; auto);
      try (specialize (G1 eq_refl); discriminate G1); try (specialize (G2 eq_refl); discriminate G2); exfalso.
    - apply nth_error_None in E2. assert (m < length (rev w)) by (apply nth_error_Some; congruence). rewrite !rev_length in *. lia.
    - apply nth_error_None in E1. assert (m < length (rev w')) by (apply nth_error_Some; congruence). rewrite !rev_length in *. lia.
  Qed.

  Lemma word_is_state w : lr_state g F (lr_at g (syms_of w)).
  Proof. apply lr_at_state. destruct (act0_X w) as (p & d & H & _). eauto. Qed.
End Kth.

(** The words of a length. *)
Fixpoint bwords (n : nat) : list (list bool) :=
  match n with O => [[]] | S n => map (cons true) (bwords n) ++ map (cons false) (bwords n) end.
Lemma bwords_length n : length (bwords n) = 2 ^ n.
Proof. induction n as [|n IH]; auto. cbn [bwords Nat.pow]. rewrite app_length, !map_length. lia. Qed.
Lemma bwords_In n : forall w, In w (bwords n) -> length w = n.
Proof.
  induction n as [|n IH]; intros w H; cbn [bwords] in H; [destruct H as [<-|[]]; auto|].
  apply in_app_or in H as [H|H]; apply in_map_iff in H as (v & <- & H); apply IH in H; simpl; auto.
Qed.
Lemma bwords_nodup n : NoDup (bwords n).
Proof.
  induction n as [|n IH]; cbn [bwords]; [repeat constructor; auto|].
  assert (Hm : forall c, NoDup (map (cons c) (bwords n))).
  { intros c. apply FinFun.Injective_map_NoDup; auto. intros x y E. injection E; auto. }
  assert (Hd : forall x, In x (map (cons true) (bwords n)) -> ~ In x (map (cons false) (bwords n))).
  { intros x H1 H2. apply in_map_iff in H1 as (y & <- & _). apply in_map_iff in H2 as (z & E & _). discriminate. }
  generalize (Hm true) (Hm false). revert Hd. generalize (map (cons false) (bwords n)). generalize (map (cons true) (bwords n)). clear.
  intros l. induction l as [|x l IHl]; intros l' Hd H1 H2; simpl; auto. inversion H1; subst. constructor.
  - intros H. apply in_app_or in H as [H|H]; [auto|]. apply (Hd x); simpl; auto.
  - apply IHl; auto. intros y Hy. apply Hd. simpl; auto.
Qed.

(** An injective relation does not shrink. *)
Lemma relation_count {A} (R : A -> nat -> Prop) n l : NoDup l ->
  (forall a, In a l -> exists i, i < n /\ R a i) -> (forall a b i, In a l -> In b l -> R a i -> R b i -> a = b) -> length l <= n.
Proof.
  intros Hnd Hex Hinj.
  assert (Hmap : forall ws, NoDup ws -> incl ws l -> exists ss, length ss = length ws /\ NoDup ss /\ forall s, In s ss -> s < n /\ exists u, In u ws /\ R u s).
  { induction ws as [|u ws IH]; intros Hn Hi; [exists []; split; auto; split; [constructor|intros ? []]|].
    inversion Hn; subst. destruct IH as (ss & E & Hns & Hss); auto; [intros y Hy; apply Hi; simpl; auto|].
    destruct (Hex u) as (s & Hlt & Fs); [apply Hi; simpl; auto|].
    exists (s :: ss). split; [simpl; auto|]. split.
    - constructor; auto. intros Hin. destruct (Hss _ Hin) as (_ & v & Hv & Fv).
      assert (u = v) as <- by (apply (Hinj u v s); auto; apply Hi; simpl; auto). auto.
    - intros s' [<-|Hs']; [split; auto; exists u; simpl; auto|]. destruct (Hss _ Hs') as (H' & v & Hv & Fv). split; auto. exists v. simpl; auto. }
  destruct (Hmap l Hnd (incl_refl _)) as (ss & E & Hn & Hss).
  rewrite <- E, <- (seq_length n 0). apply NoDup_incl_length; auto. intros s Hs. apply in_seq. destruct (Hss _ Hs). lia.
Qed.
