(** The LR(1) states of a grammar of operators with lists, for C88. *)
From Verif Require Import Base Grammar GrammarSpec GrammarProofs First Item ItemSpec ItemProofs Table TableSpec TableFacts TreeFacts LayerProofs SeqSpec.

Section Seq.
  Variables (g : grammar) (M : lang).
  Notation E := (lg_name M).
  Notation top := (lg_top M).
  Hypothesis W : wf_grammar g (E 0 0).
  Hypothesis Hplain : plain g.
  Hypothesis Hfresh : forall s i, s < lg_sorts M -> i <= top s -> aug_name (E 0 0) <> E s i.
  Hypothesis Hfresh' : forall n, n < ls_count M -> aug_name (E 0 0) <> ls_name M n.
  Hypothesis HR : forall p pr, nth_error (g_prods g) p = Some pr -> p <> 0 -> lrule M (p_name pr) (p_syms pr).
  Hypothesis HR' : forall A b, lrule M A b -> exists p pr, p <> 0 /\ nth_error (g_prods g) p = Some pr /\ p_name pr = A /\ p_syms pr = b.
  Hypothesis HU : forall p q pp pq, p <> 0 -> q <> 0 -> nth_error (g_prods g) p = Some pp -> nth_error (g_prods g) q = Some pq ->
    p_name pp = p_name pq -> p_syms pp = p_syms pq -> p = q.
  Hypothesis OK : lang_ok M.
  Notation F := (F_std g).
  Notation rul := (rul g).
  Notation sy := (map (slot_sym M)).

  (** ** Rules *)

  Definition ok (s i : nat) : Prop := s < lg_sorts M /\ i <= top s.
  Lemma E_inj s i s' i' : ok s i -> ok s' i' -> E s i = E s' i' -> s = s' /\ i = i'.
  Proof using OK. intros [H1 H2] [H3 H4]. apply (mk_names _ OK); auto. Qed.
  Lemma rul0 : rul 0 (aug_name (E 0 0)) [SNon (E 0 0)].
  Proof using W. eexists. split; [apply (wg_prod0 _ _ W)|auto]. Qed.
  Lemma rul_one p q A b : p <> 0 -> q <> 0 -> rul p A b -> rul q A b -> p = q.
  Proof using HU. intros Hp Hq (pp & H & E1 & E2) (pq & H' & E1' & E2'). eapply HU; eauto; congruence. Qed.
  Lemma rul_get A b : lrule M A b -> exists p, p <> 0 /\ rul p A b.
  Proof using HR'. intros H. destruct (HR' _ _ H) as (p & pr & H0 & Hp & E1 & E2). exists p. split; auto. exists pr. auto. Qed.

  Definition lsl (s i : nat) (f : form) : list slot := if fm_l f then [Arg s (lo M s i)] else [].
  Definition rsl (s i : nat) (f : form) : list slot := right_slots M s i (fm_r f).
  Notation psl := (flat_map (piece_slots M)).
  Definition body (s i : nat) (f : form) : list sym := sy (form_slots M s i f).
  Lemma form_split s i f pre more : fm_more f = pre ++ more -> form_slots M s i f = (lsl s i f ++ Tok (fm_first f) :: psl pre) ++ psl more ++ rsl s i f.
  Proof. intros E0. unfold form_slots, lsl, rsl. rewrite E0, flat_map_app, <- !app_assoc. cbn [app]. rewrite ?app_assoc. reflexivity. Qed.

  (** The sort and level of a production. *)
  Definition lev (p s i : nat) : Prop := p <> 0 /\ ok s i /\ exists b, rul p (E s i) b.
  Lemma lev_fun p s i s' i' : lev p s i -> lev p s' i' -> s = s' /\ i = i'.
  Proof using OK. intros (_ & Hi & b & H) (_ & Hj & b' & H'). destruct (rul_fun _ _ _ _ _ _ H H') as [E0 _]. apply E_inj; auto. Qed.
  Lemma form_ok s i f : is_form M s i f -> ok s i.
  Proof. intros (H1 & H2 & _). split; auto. Qed.

  (** A rule is one of an operator or one that goes to the next level. *)
  Lemma lev_rule p s i : lev p s i -> (exists f, is_form M s i f /\ rul p (E s i) (body s i f)) \/ (i < top s /\ rul p (E s i) [SNon (E s (S i))]).
  Proof using HR OK.
    intros (H0 & Hi & b & pr & Hp & EN & EB). pose proof (HR _ _ Hp H0) as HM. rewrite EN, EB in HM.
    assert (H : rul p (E s i) b) by (exists pr; auto). inversion HM as [s' i' Hs Hi' E1 E2|s' i' f Hf E1 E2|n Hn E1 E2|n Hn E1 E2].
    - destruct (E_inj s' i' s i) as [-> ->]; auto; [split; auto; lia|]. right. rewrite E2. auto.
    - destruct (E_inj s' i' s i) as [-> ->]; auto; [eapply form_ok; eauto|]. left. exists f. unfold body. rewrite E2. auto.
    - destruct Hi. exfalso. eapply (mk_other _ OK); eauto.
    - destruct Hi. exfalso. eapply (mk_other _ OK); eauto.
  Qed.
  (** The two rules of a list. *)
  Definition lone (p n : nat) : Prop := p <> 0 /\ n < ls_count M /\ rul p (ls_name M n) [SNon (E (ls_sort M n) 0)].
  Definition lmore (p n : nat) : Prop := p <> 0 /\ n < ls_count M /\ rul p (ls_name M n) [SNon (ls_name M n); ls_sep M n; SNon (E (ls_sort M n) 0)].
  Definition lst (p n : nat) : Prop := lone p n \/ lmore p n.
  Lemma lst_name p n : lst p n -> p <> 0 /\ n < ls_count M /\ exists b, rul p (ls_name M n) b.
  Proof. intros [(H0 & Hn & H)|(H0 & Hn & H)]; eauto. Qed.
  Lemma lst_fun p n n' : lst p n -> lst p n' -> n = n'.
  Proof using OK. intros H H'. apply lst_name in H as (_ & Hn & b & H), H' as (_ & Hn' & b' & H'). destruct (rul_fun _ _ _ _ _ _ H H') as [En _]. eapply (mk_lists _ OK); eauto. Qed.
  Lemma lst_lev p n s i : lst p n -> ~ lev p s i.
  Proof using OK. intros H (_ & [Hs Hi] & b' & H'). apply lst_name in H as (_ & Hn & b & H). destruct (rul_fun _ _ _ _ _ _ H H') as [En _]. eapply (mk_other _ OK); eauto. Qed.
  Lemma one_more p n n' : lone p n -> ~ lmore p n'.
  Proof. intros (_ & _ & H) (_ & _ & H'). destruct (rul_fun _ _ _ _ _ _ H H') as [_ Eb]. discriminate. Qed.
  Lemma lone_one p q n : lone p n -> lone q n -> p = q.
  Proof using HU. intros (H0 & _ & H) (H0' & _ & H'). eapply rul_one; eauto. Qed.
  Lemma lmore_one p q n : lmore p n -> lmore q n -> p = q.
  Proof using HU. intros (H0 & _ & H) (H0' & _ & H'). eapply rul_one; eauto. Qed.
  Lemma lone_get n : n < ls_count M -> exists p, lone p n.
  Proof using HR'. intros Hn. destruct (rul_get _ _ (lr_one M n Hn)) as (p & H0 & H). exists p. split; auto. Qed.
  Lemma lmore_get n : n < ls_count M -> exists p, lmore p n.
  Proof using HR'. intros Hn. destruct (rul_get _ _ (lr_more M n Hn)) as (p & H0 & H). exists p. split; auto. Qed.
  Lemma lone_at p n d x : lone p n -> sym_at g p d x -> d = 0 /\ x = SNon (E (ls_sort M n) 0).
  Proof. intros (_ & _ & H) Hx. rewrite (rul_at _ _ _ _ _ _ H) in Hx. destruct d as [|[|d]]; try discriminate. injection Hx as <-. auto. Qed.
  Lemma lmore_at p n d x : lmore p n -> sym_at g p d x -> (d = 0 /\ x = SNon (ls_name M n)) \/ (d = 1 /\ x = ls_sep M n) \/ (d = 2 /\ x = SNon (E (ls_sort M n) 0)).
  Proof. intros (_ & _ & H) Hx. rewrite (rul_at _ _ _ _ _ _ H) in Hx. destruct d as [|[|[|[|d]]]]; try discriminate; injection Hx as <-; auto. Qed.
  Lemma lmore_sym p n : lmore p n -> sym_at g p 0 (SNon (ls_name M n)) /\ sym_at g p 1 (ls_sep M n) /\ sym_at g p 2 (SNon (E (ls_sort M n) 0)).
  Proof. intros (_ & _ & H). rewrite !(rul_at _ _ _ _ _ _ H). auto. Qed.
  Lemma form_lev p s i f : p <> 0 -> is_form M s i f -> rul p (E s i) (body s i f) -> lev p s i.
  Proof. intros H0 Hf H. split; auto. split; [eapply form_ok; eauto|eauto]. Qed.

  (** ** Terminals *)

  Lemma first_term s i f : is_form M s i f -> terminal (fm_first f).
  Proof using OK. intros Hf. apply (mk_slots _ OK s i f Hf (Tok (fm_first f))). apply in_or_app. right. left. reflexivity. Qed.
  Lemma arg_slot s i f s' t : is_form M s i f -> In (PArg s' t) (fm_more f) -> s' < lg_sorts M /\ terminal t.
  Proof using OK.
    intros Hf Hi. assert (G : forall x, In x [Arg s' 0; Tok t] -> In x (form_slots M s i f)).
    { intros x Hx. apply in_or_app. right. right. apply in_or_app. left. apply in_flat_map. exists (PArg s' t). auto. }
    split; [apply (mk_slots _ OK s i f Hf (Arg s' 0)), G; simpl; auto|apply (mk_slots _ OK s i f Hf (Tok t)), G; simpl; auto].
  Qed.
  Lemma list_slot s i f n : is_form M s i f -> In (PList n) (fm_more f) -> n < ls_count M.
  Proof using OK.
    intros Hf Hi. apply (mk_slots _ OK s i f Hf (Lst n)). apply in_or_app. right. right. apply in_or_app. left. apply in_flat_map. exists (PList n). simpl; auto.
  Qed.
  Lemma list_ok n : n < ls_count M -> ok (ls_sort M n) 0.
  Proof using OK. intros Hn. split; [apply (mk_list _ OK n Hn)|lia]. Qed.
  Lemma tok_slot s i f t : is_form M s i f -> In (PTok t) (fm_more f) -> terminal t.
  Proof using OK.
    intros Hf Hi. apply (mk_slots _ OK s i f Hf (Tok t)). apply in_or_app. right. right. apply in_or_app. left. apply in_flat_map. exists (PTok t). simpl; auto.
  Qed.
  Lemma lo_ok s i f : is_form M s i f -> fm_l f = true -> ok s (lo M s i).
  Proof using OK. intros Hf Hl. apply (mk_slots _ OK s i f Hf (Arg s (lo M s i))). unfold form_slots. rewrite Hl. simpl. auto. Qed.
  Lemma ro_ok s i f : is_form M s i f -> fm_r f = RSame -> ok s (ro M s i).
  Proof using OK.
    intros Hf Hl. apply (mk_slots _ OK s i f Hf (Arg s (ro M s i))). unfold form_slots. rewrite Hl. apply in_or_app. right. right. apply in_or_app. right. simpl. auto.
  Qed.
  Lemma end_ok s i f s' : is_form M s i f -> fm_r f = ROther s' -> ok s' 0.
  Proof using OK.
    intros Hf Hl. apply (mk_slots _ OK s i f Hf (Arg s' 0)). unfold form_slots. rewrite Hl. apply in_or_app. right. right. apply in_or_app. right. simpl. auto.
  Qed.
  Lemma ok0 : ok 0 0.
  Proof using OK. split; [apply (mk_sort _ OK)|lia]. Qed.

  (** Two operators with one first terminal, in one sort. *)
  Lemma same_first p p' s i i' f f' : p <> 0 -> p' <> 0 -> is_form M s i f -> is_form M s i' f' -> rul p (E s i) (body s i f) -> rul p' (E s i') (body s i' f') ->
    fm_l f = fm_l f' -> fm_first f = fm_first f' -> p = p' /\ i = i' /\ f = f'.
  Proof using HU OK. intros H0 H0' Hf Hf' H H' El Ef. destruct (mk_first _ OK _ _ _ _ _ Hf Hf' El Ef) as [-> ->]. split; auto. eapply rul_one; eauto. Qed.

  (** The first symbols of a rule. *)
  Lemma first_name p s i B : lev p s i -> sym_at g p 0 (SNon B) ->
    (exists f, is_form M s i f /\ fm_l f = true /\ B = E s (lo M s i) /\ ok s (lo M s i) /\ rul p (E s i) (body s i f)) \/
    (i < top s /\ B = E s (S i) /\ rul p (E s i) [SNon (E s (S i))]).
  Proof using HR OK.
    intros Hl Hx. destruct (lev_rule _ _ _ Hl) as [(f & Hf & H)|(Hi & H)]; rewrite (rul_at _ _ _ _ _ _ H) in Hx.
    - left. exists f. destruct (fm_l f) eqn:El.
      + unfold body, form_slots in Hx. rewrite El in Hx. cbn in Hx. injection Hx as <-. split; auto. split; auto. split; auto. split; auto. eapply (lo_ok s i f); eauto.
      + exfalso. unfold body, form_slots in Hx. rewrite El in Hx. cbn in Hx. injection Hx as Hx. eapply first_term; eauto.
    - cbn in Hx. injection Hx as <-. right. auto.
  Qed.
  Lemma first_token p s i x : lev p s i -> sym_at g p 0 x -> terminal x -> exists f, is_form M s i f /\ fm_l f = false /\ x = fm_first f /\ rul p (E s i) (body s i f).
  Proof using HR OK.
    intros Hl Hx Ht. destruct (lev_rule _ _ _ Hl) as [(f & Hf & H)|(Hi & H)]; rewrite (rul_at _ _ _ _ _ _ H) in Hx.
    - exists f. destruct (fm_l f) eqn:El; unfold body, form_slots in Hx; rewrite El in Hx; cbn in Hx; injection Hx as <-; [exfalso; eapply Ht; reflexivity|auto].
    - cbn in Hx. injection Hx as <-. exfalso. eapply Ht; reflexivity.
  Qed.
  Lemma name_next p s i B x : lev p s i -> sym_at g p 0 (SNon B) -> sym_at g p 1 x ->
    exists f, is_form M s i f /\ fm_l f = true /\ x = fm_first f /\ B = E s (lo M s i) /\ rul p (E s i) (body s i f).
  Proof using HR OK.
    intros Hl Hs Hx. destruct (first_name _ _ _ _ Hl Hs) as [(f & Hf & Hfl & -> & _ & H)|(Hi & -> & H)]; rewrite (rul_at _ _ _ _ _ _ H) in Hx; [|discriminate Hx].
    unfold body, form_slots in Hx. rewrite Hfl in Hx. cbn in Hx. injection Hx as <-. exists f. auto.
  Qed.
  Lemma rest_first p s i f : fm_l f = true -> rul p (E s i) (body s i f) -> exists u, rest g p 1 = fm_first f :: u.
  Proof. intros Hfl H. rewrite (rul_rest _ _ _ _ _ H). unfold body, form_slots. rewrite Hfl. cbn. eauto. Qed.

  (** ** Contexts and lookaheads *)

  (** What can follow an expression of a sort: the end, a terminal, or the separator and the end of a list. *)
  Notation cxt := (sym * sym)%type.
  Definition inn (y : sym) (c : cxt) : Prop := y = fst c \/ y = snd c.
  Definition eofc : cxt := (SEof, SEof).
  Definition lcx (n : nat) : cxt := (ls_sep M n, ls_end M n).
  Inductive ctx : nat -> cxt -> Prop :=
  | cx_eof : ctx 0 eofc
  | cx_arg s c i f s' t : ctx s c -> is_form M s i f -> In (PArg s' t) (fm_more f) -> ctx s' (t, t)
  | cx_list s c i f n : ctx s c -> is_form M s i f -> In (PList n) (fm_more f) -> ctx (ls_sort M n) (lcx n)
  | cx_end s c i f s' : ctx s c -> is_form M s i f -> fm_r f = ROther s' -> ctx s' c.
  (** The lists that can be reached. *)
  Definition used (n : nat) : Prop := exists s c i f, ctx s c /\ is_form M s i f /\ In (PList n) (fm_more f).
  Definition look (s i : nat) (c : cxt) (y : sym) : Prop := inn y c \/ exists j f, is_form M s j f /\ fm_l f = true /\ lo M s j <= i /\ y = fm_first f.
  Definition lk (p : nat) (c : cxt) (y : sym) : Prop := (p = 0 /\ inn y c) \/ (exists n, lst p n /\ inn y c) \/ exists s i, lev p s i /\ look s i c y.
  (** The contexts of a production. *)
  Definition cq (q : nat) (c : cxt) : Prop := (q = 0 /\ c = eofc) \/ (exists n, lst q n /\ used n /\ c = lcx n) \/ exists s i, lev q s i /\ ctx s c.

  Lemma lk_lev p s i c y : lev p s i -> (lk p c y <-> look s i c y).
  Proof using OK.
    intros Hl. split; [|intros H; right; right; eauto]. intros [[-> _]|[(n & Hn & _)|(s' & j & Hj & H)]]; [destruct Hl as [Hl _]; congruence|destruct (lst_lev _ _ _ _ Hn Hl)|].
    destruct (lev_fun _ _ _ _ _ Hl Hj) as [-> ->]. exact H.
  Qed.
  Lemma lk_zero c y : lk 0 c y <-> inn y c.
  Proof. split; [intros [[_ H]|[(n & Hn & _)|(s & j & [H _] & _)]]; auto; [|congruence]; destruct (lst_name _ _ Hn) as [Hn' _]; congruence|intros H; left; auto]. Qed.
  Lemma lk_lst p n c y : lst p n -> (lk p c y <-> inn y c).
  Proof using OK.
    intros Hl. split; [|intros H; right; left; eauto]. intros [[_ H]|[(n' & Hn & H)|(s' & j & Hj & H)]]; auto. destruct (lst_lev _ _ _ _ Hl Hj).
  Qed.
  Lemma cq_lev q s i c : lev q s i -> (cq q c <-> ctx s c).
  Proof using OK.
    intros Hl. split; [|intros H; right; right; eauto]. intros [[-> _]|[(n & Hn & _)|(s' & j & Hj & H)]]; [destruct Hl as [Hl _]; congruence|destruct (lst_lev _ _ _ _ Hn Hl)|].
    destruct (lev_fun _ _ _ _ _ Hl Hj) as [-> ->]. exact H.
  Qed.
  Lemma cq_zero c : cq 0 c <-> c = eofc.
  Proof. split; [intros [[_ H]|[(n & Hn & _)|(s & j & [H _] & _)]]; auto; [|congruence]; destruct (lst_name _ _ Hn) as [Hn' _]; congruence|intros ->; left; auto]. Qed.
  Lemma cq_lst q n c : lst q n -> (cq q c <-> used n /\ c = lcx n).
  Proof using OK.
    intros Hl. split; [|intros H; right; left; eauto]. intros [[-> _]|[(n' & Hn & H)|(s' & j & Hj & H)]]; [destruct (lst_name _ _ Hl) as [H0 _]; congruence| |destruct (lst_lev _ _ _ _ Hl Hj)].
    rewrite (lst_fun _ _ _ Hl Hn). exact H.
  Qed.
  Lemma used_ctx n : used n -> ctx (ls_sort M n) (lcx n).
  Proof. intros (s & c & i & f & Hc & Hf & Hi). eapply cx_list; eauto. Qed.
  Lemma used_ok n : used n -> n < ls_count M.
  Proof using OK. intros (s & c & i & f & Hc & Hf & Hi). eapply list_slot; eauto. Qed.
  Lemma inn_fst c : inn (fst c) c.
  Proof. left. reflexivity. Qed.
  Lemma inn_one y t : inn y (t, t) <-> y = t.
  Proof. unfold inn. cbn. tauto. Qed.
  Lemma look_inn s i c y : inn y c -> look s i c y.
  Proof. left. assumption. Qed.
  Lemma look_le s i i' c y : i <= i' -> look s i c y -> look s i' c y.
  Proof. intros Hi [H|(j & f & H)]; [left; auto|right; exists j, f; intuition lia]. Qed.
  Lemma ctx_sort s c : ctx s c -> s < lg_sorts M.
  Proof using OK. intros [|s0 c0 i f s' t _ Hf Hi|s0 c0 i f n _ Hf Hi|s0 c0 i f s' _ Hf Hi]; [apply (mk_sort _ OK)|eapply arg_slot; eauto|apply list_ok; eapply list_slot; eauto|eapply end_ok; eauto]. Qed.
  (** A sort with an operator that ends with another sort has one context. *)
  Lemma end_ctx s i f s' : is_form M s i f -> fm_r f = ROther s' -> exists t, (forall c, ctx s c -> c = t) /\ forall j f', is_form M s' j f' -> fm_l f' = true -> ~ inn (fm_first f') t.
  Proof using OK.
    intros Hf Hr. destruct (mk_end _ OK _ _ _ _ Hf Hr) as (H0 & _ & H1 & a & b & H2 & H3 & H4). exists (a, b). split.
    - intros c Hc. destruct Hc as [|s0 c0 j f' s1 t _ Hf' Hi|s0 c0 j f' n _ Hf' Hi|s0 c0 j f' s1 _ Hf' Hi]; [congruence| | |destruct (H1 _ _ _ Hf' Hi)].
      + destruct (H2 _ _ _ _ Hf' Hi). congruence.
      + destruct (H3 n (list_slot _ _ _ _ Hf' Hi) eq_refl). unfold lcx. congruence.
    - intros j f' Hf' Hl Hy. destruct (H4 j f' Hf' Hl) as [N1 N2]. destruct Hy; auto.
  Qed.
  Lemma end_look s i f s' c y : is_form M s i f -> fm_r f = ROther s' -> look s i c y -> inn y c.
  Proof using OK.
    intros Hf Hr [H|(j & f' & Hf' & Hl & _)]; auto. destruct (mk_end _ OK _ _ _ _ Hf Hr) as (_ & H1 & _). rewrite (H1 _ _ Hf') in Hl. discriminate.
  Qed.
  Lemma lcx_term n y : n < ls_count M -> inn y (lcx n) -> terminal y.
  Proof using OK. intros Hn [-> | ->]; apply (mk_list _ OK n Hn). Qed.
  Lemma ctx_term s c y : ctx s c -> inn y c -> terminal y.
  Proof using OK.
    intros Hc Hy. induction Hc as [|s0 c0 i f s' t _ _ Hf Hi|s0 c0 i f n _ _ Hf Hi|]; [destruct Hy as [-> | ->]; intros n H; discriminate|apply inn_one in Hy; subst y; eapply arg_slot; eauto| |auto].
    eapply lcx_term; eauto. eapply list_slot; eauto.
  Qed.
  Lemma look_term s i c y : ctx s c -> look s i c y -> terminal y.
  Proof using OK. intros Hc [H|(j & f & Hf & _ & _ & ->)]; [eapply ctx_term; eauto|eapply first_term; eauto]. Qed.
  Lemma first_in s i f : In (fm_first f) (body s i f).
  Proof. apply in_map_iff. exists (Tok (fm_first f)). split; auto. apply in_or_app. right. left. reflexivity. Qed.
  Lemma form_get s i f : is_form M s i f -> exists p, p <> 0 /\ rul p (E s i) (body s i f).
  Proof using HR'. intros Hf. apply rul_get, lr_form, Hf. Qed.
  Lemma body_not_eof p A b x : rul p A b -> In x b -> x <> SEof.
  Proof using Hplain. intros (pr & Hp & _ & <-) Hi ->. destruct Hplain as [_ He]. apply (He pr (nth_error_In _ _ Hp) Hi). Qed.
  (** An operator does not begin with what ends an operand. *)
  Lemma first_ctx s i f c : is_form M s i f -> fm_l f = true -> ctx s c -> ~ inn (fm_first f) c.
  Proof using Hplain HR' OK.
    intros Hf Hl Hc Hy. destruct Hc as [|s0 c0 j f' s' t _ Hf' Hi|s0 c0 j f' n _ Hf' Hi|s0 c0 j f' s' Hc Hf' Hi].
    - destruct (form_get _ _ _ Hf) as (p & _ & H). assert (fm_first f = SEof) by (destruct Hy; auto). eapply body_not_eof; eauto. apply first_in.
    - apply inn_one in Hy. revert Hy. eapply (mk_apart _ OK); eauto.
    - pose proof (list_slot _ _ _ _ Hf' Hi) as Hn. destruct (mk_apart' _ OK i f n Hn Hf Hl) as [H1 H2]. destruct Hy; auto.
    - destruct (end_ctx _ _ _ _ Hf' Hi) as (t & H1 & H2). rewrite (H1 _ Hc) in Hy. eapply H2; eauto.
  Qed.
  Lemma look_first s i c j f : ctx s c -> is_form M s j f -> fm_l f = true -> look s i c (fm_first f) -> lo M s j <= i.
  Proof using Hplain HR' OK.
    intros Hc Hf Hl [H|(j' & f' & Hf' & Hl' & Hle & H)]; [exfalso; eapply first_ctx; eauto|]. destruct (mk_first _ OK _ _ _ _ _ Hf Hf' ltac:(congruence) H) as [-> _]. exact Hle.
  Qed.

  Lemma tok0 : tok g 0 SEof.
  Proof using W. destruct (wg_tokens _ _ W) as (l & E0 & _). split; [rewrite E0; reflexivity|intros; lia]. Qed.
  Lemma tok_body p A b x : rul p A b -> In x b -> exists k, tok g k x.
  Proof using W.
    intros (pr & H & _ & <-) Hx. apply tok_in. destruct (wg_tokens _ _ W) as (l & -> & _ & Hl). right. apply Hl. exists pr. eauto using nth_error_In.
  Qed.
  Lemma tok_used n y : used n -> inn y (lcx n) -> exists k, tok g k y.
  Proof using W HR' OK.
    intros Hu [-> | ->].
    - destruct (lmore_get _ (used_ok _ Hu)) as (p & _ & _ & H). eapply tok_body; eauto. simpl. auto.
    - destruct Hu as (s & c & i & f & _ & Hf & Hi). destruct (form_get _ _ _ Hf) as (p & _ & H). eapply tok_body; eauto.
      apply in_map_iff. exists (Tok (ls_end M n)). split; auto. apply in_or_app. right. right. apply in_or_app. left. apply in_flat_map. exists (PList n). simpl. auto.
  Qed.
  Lemma tok_ctx s c y : ctx s c -> inn y c -> exists k, tok g k y.
  Proof using W HR' OK.
    intros Hc Hy. induction Hc as [|s0 c0 i f s' t _ _ Hf Hi|s0 c0 i f n Hc _ Hf Hi|]; [exists 0; destruct Hy as [-> | ->]; apply tok0| |eapply tok_used; eauto; exists s0, c0, i, f; auto|auto].
    apply inn_one in Hy. subst y. destruct (form_get _ _ _ Hf) as (p & _ & H). eapply tok_body; eauto.
    apply in_map_iff. exists (Tok t). split; auto. apply in_or_app. right. right. apply in_or_app. left. apply in_flat_map. exists (PArg s' t). simpl. auto.
  Qed.
  Lemma tok_first s i f : is_form M s i f -> exists k, tok g k (fm_first f).
  Proof using W HR'. intros Hf. destruct (form_get _ _ _ Hf) as (p & _ & H). eapply tok_body; eauto. apply first_in. Qed.
  Lemma tok_cq q c y : cq q c -> inn y c -> exists k, tok g k y.
  Proof using W HR' OK. intros [[_ ->]|[(n & _ & Hu & ->)|(s & i & _ & H)]] Hy; [exists 0; destruct Hy as [-> | ->]; apply tok0|eapply tok_used; eauto|eapply tok_ctx; eauto]. Qed.
  Lemma cq_term q c y : cq q c -> inn y c -> terminal y.
  Proof using OK. intros [[_ ->]|[(n & _ & Hu & ->)|(s & i & _ & H)]] Hy; [destruct Hy as [-> | ->]; intros n H; discriminate|eapply lcx_term; eauto; apply used_ok, Hu|eapply ctx_term; eauto]. Qed.
  Lemma lk_term q c y : cq q c -> lk q c y -> terminal y.
  Proof using OK.
    intros Hc [[_ H]|[(n & _ & H)|(s & i & Hl & H)]]; [eapply cq_term; eauto..|]. rewrite (cq_lev _ _ _ _ Hl) in Hc. eapply look_term; eauto.
  Qed.
  Lemma lk_inn q c y : cq q c -> inn y c -> lk q c y.
  Proof using OK. intros [[-> ->]|[(n & Hn & _)|(s & i & Hl & H)]] Hy; [apply lk_zero; auto|apply (lk_lst _ _ _ _ Hn), Hy|apply (lk_lev _ _ _ _ _ Hl), look_inn, Hy]. Qed.

  (** ** Positions after a terminal *)

  Definition tpos (q e s i : nat) (f : form) (pre more : list piece) : Prop :=
    q <> 0 /\ is_form M s i f /\ rul q (E s i) (body s i f) /\ fm_more f = pre ++ more /\ e = length (lsl s i f ++ Tok (fm_first f) :: psl pre).
  Lemma tpos_rest q e s i f pre more : tpos q e s i f pre more -> rest g q e = sy (psl more ++ rsl s i f).
  Proof.
    intros (_ & _ & H & Em & ->). rewrite (rul_rest _ _ _ _ _ H). unfold body. rewrite (form_split _ _ _ _ _ Em), map_app, skipn_app, map_length, skipn_all2, Nat.sub_diag; [reflexivity|].
    rewrite map_length. lia.
  Qed.
  Lemma tpos_lev q e s i f pre more : tpos q e s i f pre more -> lev q s i.
  Proof. intros (H0 & Hf & H & _). eapply form_lev; eauto. Qed.
  Lemma tpos_hot q e s i f pre more : tpos q e s i f pre more -> exists d x, e = S d /\ sym_at g q d x /\ terminal x.
  Proof using OK.
    intros (_ & Hf & H & Em & ->). set (u := lsl s i f ++ Tok (fm_first f) :: psl pre).
    assert (G : exists u' t, u = u' ++ [Tok t] /\ terminal t).
    { unfold u. destruct pre as [|p0 pre _] using rev_ind.
      - exists (lsl s i f), (fm_first f). split; auto. eapply first_term; eauto.
      - rewrite flat_map_app. cbn [flat_map]. rewrite app_nil_r. assert (Hi : In p0 (fm_more f)) by (rewrite Em; apply in_or_app; left; apply in_or_app; right; simpl; auto).
        destruct p0 as [t|s' t|n]; cbn [piece_slots].
        + exists (lsl s i f ++ Tok (fm_first f) :: psl pre), t. split; [rewrite <- app_assoc; reflexivity|eapply tok_slot; eauto].
        + exists (lsl s i f ++ Tok (fm_first f) :: psl pre ++ [Arg s' 0]), t. split; [rewrite <- !app_assoc; cbn [app]; rewrite <- app_assoc; reflexivity|eapply arg_slot; eauto].
        + exists (lsl s i f ++ Tok (fm_first f) :: psl pre ++ [Lst n]), (ls_end M n). split; [rewrite <- !app_assoc; cbn [app]; rewrite <- app_assoc; reflexivity|].
          apply (mk_list _ OK n). eapply list_slot; eauto. }
    destruct G as (u' & t & Eu & Ht). exists (length u'), t. split; [rewrite Eu, app_length; cbn; lia|]. split; auto.
    rewrite (rul_at _ _ _ _ _ _ H). unfold body. rewrite (form_split _ _ _ _ _ Em). fold u. rewrite Eu, map_app, map_app, <- app_assoc, nth_error_app2 by (rewrite map_length; lia).
    rewrite map_length, Nat.sub_diag. reflexivity.
  Qed.
  Lemma tpos_make q s i f d x : q <> 0 -> is_form M s i f -> rul q (E s i) (body s i f) -> sym_at g q d x -> terminal x -> exists pre more, tpos q (S d) s i f pre more.
  Proof using OK.
    intros H0 Hf H Hx Ht. rewrite (rul_at _ _ _ _ _ _ H) in Hx.
    assert (R : forall d, nth_error (sy (rsl s i f)) d <> Some x).
    { unfold rsl. intros d0 E0. destruct (fm_r f); destruct d0 as [|[|d0]]; try discriminate E0; injection E0 as <-; eapply Ht; reflexivity. }
    assert (G : forall more t d, nth_error (sy (Tok t :: psl more ++ rsl s i f)) d = Some x -> exists pre more', more = pre ++ more' /\ S d = length (Tok t :: psl pre)).
    { clear d Hx. induction more as [|p0 more IH]; intros t d Hx.
      - destruct d as [|d]; [exists [], []; auto|]. cbn in Hx. apply R in Hx as [].
      - destruct d as [|d]; [exists [], (p0 :: more); auto|]. cbn [flat_map] in Hx. rewrite <- app_assoc in Hx. destruct p0 as [t'|s' t'|n]; cbn [piece_slots app] in Hx; cbn [map nth_error] in Hx.
        + destruct (IH t' d Hx) as (pre & more' & -> & El). exists (PTok t' :: pre), more'. split; auto. cbn in *. lia.
        + destruct d as [|d]; [cbn in Hx; injection Hx as <-; exfalso; eapply Ht; reflexivity|]. cbn [nth_error] in Hx.
          destruct (IH t' d Hx) as (pre & more' & -> & El). exists (PArg s' t' :: pre), more'. split; auto. cbn in *. lia.
        + destruct d as [|d]; [cbn in Hx; injection Hx as <-; exfalso; eapply Ht; reflexivity|]. cbn [nth_error] in Hx.
          destruct (IH (ls_end M n) d Hx) as (pre & more' & -> & El). exists (PList n :: pre), more'. split; auto. cbn in *. lia. }
    unfold body, form_slots in Hx. fold (lsl s i f) (rsl s i f) in Hx. rewrite map_app in Hx.
    assert (D : d < length (lsl s i f) \/ length (lsl s i f) <= d) by lia. destruct D as [D|D].
    - exfalso. unfold lsl in D, Hx. destruct (fm_l f); cbn in D; [|lia]. assert (d = 0) by lia. subst d. cbn in Hx. injection Hx as <-. eapply Ht; reflexivity.
    - rewrite nth_error_app2 in Hx by (rewrite map_length; lia). rewrite map_length in Hx. destruct (G _ _ _ Hx) as (pre & more & Em & El).
      exists pre, more. split; auto. split; auto. split; auto. split; auto. rewrite app_length. lia.
  Qed.
  (** One terminal of a rule, and the next place after a terminal. *)
  Lemma tpos_fun q e s i f pre more s' i' f' pre' more' : tpos q e s i f pre more -> tpos q e s' i' f' pre' more' -> s = s' /\ i = i' /\ f = f' /\ pre = pre' /\ more = more'.
  Proof using OK.
    intros T T'. destruct (lev_fun _ _ _ _ _ (tpos_lev _ _ _ _ _ _ _ T) (tpos_lev _ _ _ _ _ _ _ T')) as [<- <-].
    destruct T as (_ & Hf & H & Em & El), T' as (_ & Hf' & H' & Em' & El'). destruct (rul_fun _ _ _ _ _ _ H H') as [_ Eb].
    assert (f = f') as <-.
    { apply (mk_first _ OK s i i); auto; unfold body, form_slots in Eb; destruct (fm_l f) eqn:E1, (fm_l f') eqn:E2; auto; cbn in Eb; try congruence; exfalso; injection Eb as Eb _;
        [eapply (first_term _ _ _ Hf'); symmetry; exact Eb|eapply (first_term _ _ _ Hf); exact Eb|eapply (first_term _ _ _ Hf'); symmetry; exact Eb|eapply (first_term _ _ _ Hf); exact Eb]. }
    assert (G : forall pre pre' more more', pre ++ more = pre' ++ more' -> length (psl pre) = length (psl pre') -> pre = pre' /\ more = more').
    { clear. induction pre as [|x pre IH]; intros [|x' pre'] more more' H Hl; auto; cbn in Hl; try (destruct x; cbn in Hl; lia); try (destruct x'; cbn in Hl; lia).
      cbn in H. injection H as -> H. rewrite !app_length in Hl. destruct (IH pre' more more' H ltac:(lia)) as [-> ->]. auto. }
    rewrite Em in Em'. rewrite El, !app_length in El'. cbn in El'. destruct (G _ _ _ _ Em' ltac:(lia)) as [-> ->]. auto.
  Qed.

  (** ** States *)

  (** The items that begin a state where an expression of sort [s] and level [m] is expected; [c] is what follows
      outside, [c'] what follows the expected expression. *)
  Inductive kern : nat -> nat -> nat -> nat -> cxt -> cxt -> Prop :=
  | k_start c : kern 0 0 0 0 c c
  | k_arg q e s i f pre s' t more c : tpos q e s i f pre (PArg s' t :: more) -> kern q e s' 0 c (t, t)
  | k_right q e s i f pre c : tpos q e s i f pre [] -> fm_r f = RSame -> kern q e s (ro M s i) c c
  | k_end q e s i f pre s' c : tpos q e s i f pre [] -> fm_r f = ROther s' -> kern q e s' 0 c c
  | k_item q n c : lmore q n -> kern q 2 (ls_sort M n) 0 c c.
  (** Those where a list is expected. *)
  Definition klist (q e n : nat) : Prop := exists s i f pre more, tpos q e s i f pre (PList n :: more).
  (** An expression is expected, or a list that begins with one. *)
  Definition kin (q e s m : nat) (c c' : cxt) : Prop := kern q e s m c c' \/ exists n, klist q e n /\ s = ls_sort M n /\ m = 0 /\ c' = lcx n.
  Definition one (q e : nat) (c : cxt) : lrset := fun p d k => exists y, tok g k y /\ p = q /\ d = e /\ lk q c y.
  Definition T_set (q e : nat) (c : cxt) : lrset := fun p d k => exists y, tok g k y /\
    ((p = q /\ d = e /\ lk q c y) \/ (d = 0 /\ exists s m c' i, kin q e s m c c' /\ m <= i /\ lev p s i /\ look s i c' y) \/
     (d = 0 /\ exists n, klist q e n /\ lst p n /\ inn y (lcx n))).
  Definition B_set (q e : nat) (c : cxt) : lrset := fun p d k => exists y, tok g k y /\
    ((p = q /\ d = S e /\ lk q c y) \/ (d = 1 /\ exists s m c', kern q e s m c c' /\ lev p s m /\ sym_at g p 0 (SNon (E s m)) /\ look s m c' y) \/
     (d = 1 /\ exists n, klist q e n /\ lmore p n /\ inn y (lcx n))).
  Definition P_set (s i : nat) (c : cxt) : lrset := fun p d k => exists y, tok g k y /\
    d = 1 /\ exists j, (j = i \/ S j = i) /\ lev p s j /\ sym_at g p 0 (SNon (E s i)) /\ look s j c y.
  (** After the first element of a list. *)
  Definition E_set (n : nat) (c : cxt) : lrset := fun p d k => exists y, tok g k y /\
    d = 1 /\ (lone p n /\ inn y c \/ lev p (ls_sort M n) 0 /\ sym_at g p 0 (SNon (E (ls_sort M n) 0)) /\ look (ls_sort M n) 0 c y).

  Definition tval (q e : nat) : Prop := (q = 0 /\ e = 0) \/ (exists s i f pre more, tpos q e s i f pre more) \/ (e = 2 /\ exists n, lmore q n).
  Lemma klist_tval q e n : klist q e n -> tval q e.
  Proof. intros (s & i & f & pre & more & T). right. left. eauto 10. Qed.
  Lemma kern_tval q e s m c c' : kern q e s m c c' -> tval q e.
  Proof. intros [c0|q0 e0 s0 i f pre s' t more c0 T|q0 e0 s0 i f pre c0 T Hr|q0 e0 s0 i f pre s' c0 T Hr|q0 n c0 H]; [left; auto|right; left; eauto 10..|right; right; eauto]. Qed.
  Lemma kin_tval q e s m c c' : kin q e s m c c' -> tval q e.
  Proof. intros [H|(n & H & _)]; [eapply kern_tval; eauto|eapply klist_tval; eauto]. Qed.
  (** An expression that ends a rule and is of another sort, or the element that makes a list longer. *)
  Definition closes (q e s : nat) : Prop := (exists n, lmore q n /\ e = 2 /\ s = ls_sort M n) \/ exists s0 i f pre, tpos q e s0 i f pre [] /\ fm_r f = ROther s.
  Lemma closes_ctx q e s : closes q e s -> exists t, (forall c, cq q c -> c = t) /\ (forall c, cq q c -> ctx s c) /\ (forall c, kern q e s 0 c c) /\ forall c y, lk q c y -> inn y c.
  Proof using OK.
    intros [(n & N & -> & ->)|(s0 & i & f & pre & T & Hr)].
    - exists (lcx n). split; [intros c Hc; rewrite (cq_lst q n c (or_intror N)) in Hc; apply Hc|].
      split; [intros c Hc; rewrite (cq_lst q n c (or_intror N)) in Hc; destruct Hc as [Hu ->]; apply used_ctx, Hu|]. split; [intros c; apply k_item, N|]. intros c y. apply (lk_lst q n c y (or_intror N)).
    - pose proof (tpos_lev _ _ _ _ _ _ _ T) as Hl. pose proof T as (_ & Hf & _). destruct (end_ctx _ _ _ _ Hf Hr) as (t & H1 & _). exists t.
      split; [intros c Hc; apply H1, (cq_lev _ _ _ _ Hl), Hc|]. split; [intros c Hc; eapply cx_end; eauto; apply (cq_lev _ _ _ _ Hl), Hc|]. split; [intros c; eapply k_end; eauto|].
      intros c y Hy. rewrite (lk_lev _ _ _ _ _ Hl) in Hy. eapply end_look; eauto.
  Qed.
  Lemma kern_rest q e s m c c' : kern q e s m c c' ->
    ok s m /\ ((q = 0 /\ e = 0 /\ s = 0 /\ m = 0 /\ c' = c) \/
               (exists s0 i f pre more t, tpos q e s0 i f pre (PArg s t :: more) /\ c' = (t, t) /\ m = 0 /\ rest g q e = SNon (E s m) :: t :: sy (psl more ++ rsl s0 i f)) \/
               (exists i f pre, tpos q e s i f pre [] /\ fm_r f = RSame /\ m = ro M s i /\ c' = c /\ rest g q e = [SNon (E s m)]) \/
               (closes q e s /\ m = 0 /\ c' = c /\ rest g q e = [SNon (E s m)])).
  Proof using OK.
    intros [c0|q0 e0 s0 i f pre s' t more c0 T|q0 e0 s0 i f pre c0 T Hr|q0 e0 s0 i f pre s' c0 T Hr|q0 n c0 H].
    - split; [apply ok0|]. left. auto.
    - pose proof T as (_ & Hf & _ & Em & _). assert (Hi : In (PArg s' t) (fm_more f)) by (rewrite Em; apply in_or_app; right; left; reflexivity).
      split; [split; [eapply arg_slot; eauto|lia]|]. right. left. exists s0, i, f, pre, more, t. split; auto. split; auto. split; auto. rewrite (tpos_rest _ _ _ _ _ _ _ T). reflexivity.
    - pose proof T as (_ & Hf & _). split; [eapply ro_ok; eauto|]. right. right. left. exists i, f, pre. split; auto. split; auto. split; auto. split; auto.
      rewrite (tpos_rest _ _ _ _ _ _ _ T). unfold rsl. rewrite Hr. reflexivity.
    - pose proof T as (_ & Hf & _). split; [eapply end_ok; eauto|]. right. right. right. split; [right; exists s0, i, f, pre; auto|]. split; auto. split; auto.
      rewrite (tpos_rest _ _ _ _ _ _ _ T). unfold rsl. rewrite Hr. reflexivity.
    - pose proof H as (_ & Hn & Hr). split; [apply list_ok, Hn|]. right. right. right. split; [left; eauto|]. split; auto. split; auto. rewrite (rul_rest _ _ _ _ _ Hr). reflexivity.
  Qed.
  Lemma klist_rest q e n : klist q e n -> n < ls_count M /\ exists u, rest g q e = SNon (ls_name M n) :: ls_end M n :: u.
  Proof using OK.
    intros (s & i & f & pre & more & T). rewrite (tpos_rest _ _ _ _ _ _ _ T). pose proof T as (_ & Hf & _ & Em & _). split; [|cbn; eauto].
    eapply list_slot; eauto. rewrite Em. apply in_or_app. right. left. reflexivity.
  Qed.
  Lemma rest_at q e x u : rest g q e = x :: u -> sym_at g q e x /\ rest g q (S e) = u.
  Proof.
    unfold rest, sym_at. destruct (nth_error (g_prods g) q) as [pr|]; [|discriminate]. intros H. split.
    - exists pr. split; auto. rewrite <- (firstn_skipn e (p_syms pr)), nth_error_app2; rewrite firstn_length; [|lia].
      assert (e <= length (p_syms pr)) by (destruct (Nat.le_gt_cases e (length (p_syms pr))); auto; rewrite skipn_all2 in H by lia; discriminate).
      rewrite Nat.min_l, Nat.sub_diag by lia. rewrite H. reflexivity.
    - replace (S e) with (1 + e) by lia. revert H. generalize (p_syms pr) as l. clear. induction e as [|e IH]; intros [|y l] H; cbn in *; try discriminate; [congruence|]. apply IH, H.
  Qed.
  Lemma at_rest q e x : sym_at g q e x -> rest g q e = x :: rest g q (S e).
  Proof.
    intros (pr & Hp & Hx). unfold rest. rewrite Hp. revert Hx. generalize (p_syms pr) as l. clear. induction e as [|e IH]; intros [|y l] Hx; cbn in *; try discriminate; [congruence|]. apply IH, Hx.
  Qed.
  Lemma klist_at q e n : klist q e n -> n < ls_count M /\ sym_at g q e (SNon (ls_name M n)) /\ sym_at g q (S e) (ls_end M n) /\ exists u, rest g q (S e) = ls_end M n :: u.
  Proof using OK. intros H. destruct (klist_rest _ _ _ H) as (Hn & u & Er). apply rest_at in Er as [H1 Er]. pose proof (rest_at _ _ _ _ Er) as [H2 _]. eauto 10. Qed.
  Lemma rest0 : rest g 0 0 = [SNon (E 0 0)].
  Proof using W. rewrite (rul_rest _ _ _ _ _ rul0). reflexivity. Qed.
  Lemma kern_m q e s m c c' : kern q e s m c c' -> ok s m /\ sym_at g q e (SNon (E s m)).
  Proof using W OK.
    intros HK. destruct (kern_rest _ _ _ _ _ _ HK) as (Ho & [(-> & -> & -> & -> & _)|[(s0 & i & f & pre & more & t & _ & _ & _ & Er)|[(i & f & pre & _ & _ & _ & _ & Er)|(_ & _ & _ & Er)]]]); split; auto;
      [apply (rest_at _ _ _ _ rest0)|apply (rest_at _ _ _ _ Er)..].
  Qed.
  Lemma kern_klist q e s m c c' n : kern q e s m c c' -> ~ klist q e n.
  Proof using W OK.
    intros HK HL. destruct (kern_m _ _ _ _ _ _ HK) as [[Ho Ho'] Hx], (klist_at _ _ _ HL) as (Hn & Hx' & _). pose proof (nt_fun _ _ _ _ _ Hx' Hx). eapply (mk_other _ OK); eauto.
  Qed.
  Lemma klist_fun q e n n' : klist q e n -> klist q e n' -> n = n'.
  Proof using OK. intros H H'. destruct (klist_at _ _ _ H) as (Hn & Hx & _), (klist_at _ _ _ H') as (Hn' & Hx' & _). eapply (mk_lists _ OK); eauto. eapply nt_fun; eauto. Qed.
  Lemma tpos_zero e s i f pre more : ~ tpos 0 e s i f pre more.
  Proof. intros (H & _). congruence. Qed.
  Lemma tpos_lst q e s i f pre more n : tpos q e s i f pre more -> ~ lst q n.
  Proof using OK. intros T Hn. eapply lst_lev; eauto. eapply tpos_lev; eauto. Qed.
  Lemma kern_fun q e s m c c' s2 m2 c2 : kern q e s m c c' -> kern q e s2 m2 c c2 -> s = s2 /\ m = m2 /\ c' = c2.
  Proof using W OK.
    intros H H'. destruct (kern_m _ _ _ _ _ _ H) as [Ho Hx], (kern_m _ _ _ _ _ _ H') as [Ho' Hx'].
    destruct (E_inj s m s2 m2 Ho Ho' (nt_fun _ _ _ _ _ Hx Hx')) as [<- <-]. split; auto. split; auto. clear Hx Hx' Ho'.
    destruct (kern_rest _ _ _ _ _ _ H) as (_ & [(E1 & E2 & _ & _ & ->)|[(s0 & i & f & pre & more & t & T & -> & _ & Er)|[(i & f & pre & T & _ & _ & -> & Er)|(N & _ & -> & Er)]]]);
      destruct (kern_rest _ _ _ _ _ _ H') as (_ & [(E1' & E2' & _ & _ & ->)|[(s0' & i' & f' & pre' & more' & t' & T' & -> & _ & Er')|[(i' & f' & pre' & T' & _ & _ & -> & Er')|(N' & _ & -> & Er')]]]);
      auto; try congruence; try (subst q; apply tpos_zero in T' as []); try (subst q; apply tpos_zero in T as []).
  Qed.
  Lemma kin_fun q e s m c c' s2 m2 c2 : kin q e s m c c' -> kin q e s2 m2 c c2 -> s = s2 /\ m = m2 /\ c' = c2.
  Proof using W OK.
    intros [H|(n & H & -> & -> & ->)] [H'|(n' & H' & -> & -> & ->)]; [eapply kern_fun; eauto|destruct (kern_klist _ _ _ _ _ _ _ H H')|destruct (kern_klist _ _ _ _ _ _ _ H' H)|].
    rewrite (klist_fun _ _ _ _ H H'). auto.
  Qed.
  Lemma kin_ok q e s m c c' : kin q e s m c c' -> ok s m.
  Proof using W OK. intros [H|(n & H & -> & -> & _)]; [eapply kern_m; eauto|]. apply list_ok. eapply klist_at; eauto. Qed.
  Lemma kern_all q e s m c c' : kern q e s m c c' -> forall c, exists c', kern q e s m c c'.
  Proof. intros [c0|q0 e0 s0 i f pre s' t more c0 T|q0 e0 s0 i f pre c0 T Hr|q0 e0 s0 i f pre s' c0 T Hr|q0 n c0 H] c1; eexists; [apply k_start|eapply k_arg; eauto|eapply k_right; eauto|eapply k_end; eauto|eapply k_item; eauto]. Qed.
  Lemma kin_all q e s m c c' : kin q e s m c c' -> forall c, exists c', kin q e s m c c'.
  Proof. intros [H|(n & H & -> & -> & ->)] c1; [destruct (kern_all _ _ _ _ _ _ H c1) as [c2 K]; exists c2; left; auto|exists (lcx n); right; eauto]. Qed.
  Lemma kin_klist q e n c : klist q e n -> kin q e (ls_sort M n) 0 c (lcx n).
  Proof. right. eauto. Qed.
  Lemma klist_used q e n c : klist q e n -> cq q c -> used n.
  Proof using OK.
    intros (s & i & f & pre & more & T) Hc. rewrite (cq_lev _ _ _ _ (tpos_lev _ _ _ _ _ _ _ T)) in Hc. destruct T as (_ & Hf & _ & Em & _).
    exists s, c, i, f. split; auto. split; auto. rewrite Em. apply in_or_app. right. left. reflexivity.
  Qed.
  (** The expected expression is followed by a terminal of the rule, or by what follows the rule. *)
  Lemma kin_kind q e s m c0 c0' : kin q e s m c0 c0' ->
    (exists t, (forall c, cq q c -> ctx s t) /\ (forall c, cq q c -> kin q e s m c t)) \/ (exists i, lev q s i /\ forall c, kin q e s m c c).
  Proof using OK.
    intros [HK|(n & HL & -> & -> & ->)].
    2:{ left. exists (lcx n). split; [intros c Hc; apply used_ctx; eapply klist_used; eauto|intros c _; apply kin_klist, HL]. }
    destruct (kern_rest _ _ _ _ _ _ HK) as (_ & [(-> & -> & -> & -> & _)|[(s0 & i & f & pre & more & t & T & -> & -> & Er)|[(i & f & pre & T & Hr & -> & -> & Er)|(N & -> & -> & Er)]]]).
    - left. exists eofc. split; [intros c _; apply cx_eof|intros c Hc; apply cq_zero in Hc; subst c; left; apply k_start].
    - left. exists (t, t). split; [|intros c _; left; eapply k_arg; eauto]. intros c Hc. rewrite (cq_lev _ _ _ _ (tpos_lev _ _ _ _ _ _ _ T)) in Hc.
      destruct T as (_ & Hf & _ & Em & _). eapply cx_arg; eauto. rewrite Em. apply in_or_app. right. left. reflexivity.
    - right. exists i. split; [eapply tpos_lev; eauto|]. intros c. left. eapply k_right; eauto.
    - left. destruct (closes_ctx _ _ _ N) as (t & H1 & H2 & H3 & _). exists t. split; intros c Hc; pose proof (H1 c Hc); subst t; [auto|left; auto].
  Qed.
  Lemma kin_ctx q e s m c c' : kin q e s m c c' -> cq q c -> ctx s c'.
  Proof using W OK.
    intros HK Hc. destruct (kin_kind _ _ _ _ _ _ HK) as [(t & H1 & H2)|(i & Hl & H)].
    - destruct (kin_fun _ _ _ _ _ _ _ _ _ HK (H2 c Hc)) as (_ & _ & ->). eauto.
    - destruct (kin_fun _ _ _ _ _ _ _ _ _ HK (H c)) as (_ & _ & ->). apply (cq_lev _ _ _ _ Hl), Hc.
  Qed.
  (** After a terminal comes an expected expression or list, a terminal or the end. *)
  Lemma tval_next q e : tval q e -> (exists s m, forall c, exists c', kern q e s m c c') \/ (exists n, klist q e n) \/ (exists x, sym_at g q e x /\ terminal x) \/ complete g q e.
  Proof using OK.
    intros [[-> ->]|[(s & i & f & pre & more & T)|(-> & n & N)]]; [left; exists 0, 0; intros c; exists c; apply k_start| |left; exists (ls_sort M n), 0; intros c; exists c; apply k_item, N].
    pose proof (tpos_rest _ _ _ _ _ _ _ T) as Er. destruct more as [|[t|s' t|n] more].
    - destruct (fm_r f) as [| |s'] eqn:Hr; [|left; exists s, (ro M s i); intros c; exists c; eapply k_right; eauto|left; exists s', 0; intros c; exists c; eapply k_end; eauto]. right. right. right.
      destruct T as (_ & _ & H & Em & El). rewrite (rul_complete _ _ _ _ _ H). unfold body. rewrite map_length, (form_split _ _ _ _ _ Em), app_length, <- El. unfold rsl. rewrite Hr. cbn. lia.
    - right. right. left. exists t. split; [eapply rest_at; exact Er|]. destruct T as (_ & Hf & _ & Em & _). eapply tok_slot; eauto. rewrite Em. apply in_or_app. right. left. reflexivity.
    - left. exists s', 0. intros c. exists (t, t). eapply k_arg; eauto.
    - right. left. exists n. exists s, i, f, pre, more. exact T.
  Qed.
  Lemma tval_name q e B : tval q e -> sym_at g q e (SNon B) -> (exists s m, B = E s m /\ forall c, exists c', kern q e s m c c') \/ exists n, B = ls_name M n /\ klist q e n.
  Proof using W OK.
    intros V Hx. destruct (tval_next _ _ V) as [(s & m & H)|[(n & H)|[(x & Hx' & Ht)|Hk]]].
    - left. exists s, m. split; auto. destruct (H eofc) as [c' HK]. eapply nt_fun; [exact Hx|]. eapply kern_m, HK.
    - right. exists n. split; auto. eapply nt_fun; [exact Hx|]. eapply klist_at, H.
    - exfalso. destruct Hx as (pr & Hp & Hx), Hx' as (pr' & Hp' & Hx'). apply (Ht B). congruence.
    - exfalso. eapply complete_no; eauto.
  Qed.
  Lemma tval_lev q e : tval q e -> q = 0 \/ (exists n, lst q n) \/ exists s i, lev q s i.
  Proof. intros [[-> _]|[(s & i & f & pre & more & T)|(_ & n & N)]]; auto; [right; right; exists s, i; eapply tpos_lev; eauto|right; left; exists n; right; auto]. Qed.
  Lemma tval_hot q e : tval q e -> (q = 0 /\ e = 0) \/ (q <> 0 /\ exists d x, e = S d /\ sym_at g q d x /\ terminal x).
  Proof using OK.
    intros [H|[(s & i & f & pre & more & T)|(-> & n & N)]]; auto; right; [split; [apply T|eapply tpos_hot; eauto]|]. split; [apply N|]. exists 1, (ls_sep M n). split; auto.
    split; [eapply lmore_sym; eauto|apply (mk_list _ OK n); apply N].
  Qed.

  Lemma names_lev s i q pq : ok s i -> nth_error (g_prods g) q = Some pq -> p_name pq = E s i -> lev q s i.
  Proof using W Hfresh.
    intros Hi Hq En. split; [|split; auto; exists (p_syms pq); exists pq; auto].
    intros ->. rewrite (wg_prod0 _ _ W) in Hq. injection Hq as <-. cbn [p_name] in En. destruct Hi. eapply Hfresh; eauto.
  Qed.
  Lemma names_lst n q pq : n < ls_count M -> nth_error (g_prods g) q = Some pq -> p_name pq = ls_name M n -> lst q n.
  Proof using W HR OK Hfresh'.
    intros Hn Hq En. assert (H0 : q <> 0).
    { intros ->. rewrite (wg_prod0 _ _ W) in Hq. injection Hq as <-. cbn [p_name] in En. eapply Hfresh'; eauto. }
    assert (Hr : rul q (p_name pq) (p_syms pq)) by (exists pq; auto). pose proof (HR _ _ Hq H0) as HM. rewrite En in *. inversion HM as [s' i' Hs Hi' E1 E2|s' i' f (Hf1 & Hf2 & _) E1 E2|n' Hn' E1 E2|n' Hn' E1 E2].
    - exfalso. apply (mk_other _ OK n s' i'); auto; lia.
    - exfalso. apply (mk_other _ OK n s' i'); auto.
    - apply (mk_lists _ OK) in E1; auto. subst n'. left. split; auto. split; auto. rewrite E2. exact Hr.
    - apply (mk_lists _ OK) in E1; auto. subst n'. right. split; auto. split; auto. rewrite E2. exact Hr.
  Qed.

  (** What the closure expects after the expression. *)
  Lemma kern_after q e s m c c' y b : kern q e s m c c' -> cq q c -> lk q c y -> F (rest g q (S e) ++ [y]) b -> look s m c' b.
  Proof using W OK.
    intros HK Hc Hy HF. pose proof (lk_term _ _ _ Hc Hy) as Ht.
    destruct (kern_rest _ _ _ _ _ _ HK) as (_ & [(-> & -> & -> & -> & ->)|[(s0 & i & f & pre & more & t & T & -> & -> & Er)|[(i & f & pre & T & Hr & -> & -> & Er)|(N & -> & -> & Er)]]]).
    - rewrite (proj2 (rest_at _ _ _ _ rest0)) in HF. cbn [app] in HF. apply F_head in HF; auto. subst b. apply lk_zero in Hy. apply look_inn, Hy.
    - rewrite (proj2 (rest_at _ _ _ _ Er)) in HF. cbn [app] in HF. apply F_head in HF; [subst b; apply look_inn; left; auto|].
      eapply ctx_term; [|apply (inn_fst (t, t))]. eapply kin_ctx; [left; eauto|eauto].
    - rewrite (proj2 (rest_at _ _ _ _ Er)) in HF. cbn [app] in HF. apply F_head in HF; auto. subst b. rewrite (lk_lev _ _ _ _ _ (tpos_lev _ _ _ _ _ _ _ T)) in Hy.
      eapply look_le; [|exact Hy]. unfold ro. destruct (lg_left M s i); lia.
    - rewrite (proj2 (rest_at _ _ _ _ Er)) in HF. cbn [app] in HF. apply F_head in HF; auto. subst b. destruct (closes_ctx _ _ _ N) as (t & _ & _ & _ & H4). apply look_inn, (H4 _ _ Hy).
  Qed.
  Lemma clo_up q e c : tval q e -> cq q c -> forall p d k, clo g F (one q e c) p d k -> T_set q e c p d k.
  Proof using W HR OK Hfresh Hfresh'.
    intros V Hc p d k.
    induction 1 as [p d k (y & Hy & -> & -> & H)|p d k a q' pq b k' _ (y & Hy & Hi) Hs Hq Ha HF Hk].
    { exists y. auto. }
    assert (a = y) as -> by (destruct Hy as [Hy _]; congruence).
    enough (G : (exists s m c' i, kin q e s m c c' /\ ok s i /\ m <= i /\ p_name pq = E s i /\ look s i c' b) \/ (exists n, klist q e n /\ p_name pq = ls_name M n /\ inn b (lcx n))).
    { destruct G as [(s & m & c' & i & HK & Hok & Hmi & En & Hb)|(n & HL & En & Hb)]; exists b; (split; [auto|]); right; [left|right]; (split; [auto|]).
      - exists s, m, c', i. split; auto. split; auto. split; auto. eapply names_lev; eauto.
      - exists n. split; auto. split; auto. eapply names_lst; eauto. eapply klist_at; eauto. }
    destruct Hi as [(-> & -> & Hl)|[(-> & s & m & c' & i & HK & Hmi & Hlv & Hl)|(-> & n & HL & Hn & Hl)]].
    - destruct (tval_name _ _ _ V Hs) as [(s & m & En & HK)|(n & En & HL)]; [left|right].
      + destruct (HK c) as [c' HK']. exists s, m, c', m. split; [left; auto|]. split; [eapply kern_m; eauto|]. split; auto. split; auto. eapply kern_after; eauto.
      + exists n. split; auto. split; auto. destruct (klist_at _ _ _ HL) as (Hn & _ & _ & u & Er). rewrite Er in HF. cbn [app] in HF. apply F_head in HF; [right; exact HF|]. apply (mk_list _ OK n Hn).
    - left. pose proof (kin_ctx _ _ _ _ _ _ HK Hc) as Hc'.
      destruct (first_name _ _ _ _ Hlv Hs) as [(f & Hf & Hfl & En & Hok & H)|(Hin & En & H)].
      + destruct (rest_first _ _ _ _ Hfl H) as [u Eu]. rewrite Eu in HF. cbn [app] in HF. apply F_head in HF; [subst b|eapply first_term; eauto].
        exists s, m, c', (lo M s i). split; auto. split; auto. split; [unfold lo; destruct (lg_left M s i); lia|]. split; auto. right. exists i, f. auto.
      + rewrite (rul_rest _ _ _ _ _ H) in HF. cbn [skipn app] in HF. apply F_head in HF; [subst b|eapply look_term; eauto].
        destruct Hlv as (_ & [Hss _] & _). exists s, m, c', (S i). split; auto. split; [split; auto|]. split; [lia|]. split; auto. eapply look_le; [|exact Hl]. lia.
    - pose proof (klist_at _ _ _ HL) as (Hnn & _). destruct Hn as [Hn|Hn].
      + left. destruct (lone_at _ _ _ _ Hn Hs) as [_ En]. injection En as En. destruct Hn as (_ & _ & H). rewrite (rul_rest _ _ _ _ _ H) in HF. cbn [skipn app] in HF.
        apply F_head in HF; [subst b|eapply lcx_term; eauto]. exists (ls_sort M n), 0, (lcx n), 0. split; [apply kin_klist, HL|]. split; [apply list_ok, Hnn|]. split; auto. split; auto. apply look_inn, Hl.
      + right. destruct (lmore_at _ _ _ _ Hn Hs) as [[_ En]|[[E0 _]|[E0 _]]]; try discriminate. injection En as En. destruct Hn as (_ & _ & H). rewrite (rul_rest _ _ _ _ _ H) in HF. cbn [skipn app] in HF.
        apply F_head in HF; [|apply (mk_list _ OK n Hnn)]. exists n. split; auto. split; auto. left. exact HF.
  Qed.
  Lemma clo_down q e c : tval q e -> cq q c -> forall p d k, T_set q e c p d k -> clo g F (one q e c) p d k.
  Proof using W HR HR' OK Hfresh Hfresh'.
    intros V Hc. set (C := clo g F (one q e c)).
    assert (KN : forall y k, tok g k y -> lk q c y -> C q e k) by (intros y k Hy Hl; apply clo_base; exists y; auto).
    destruct (tok_cq _ _ _ Hc (inn_fst c)) as [k1 Hk1].
    (* the rules of a list *)
    assert (LL : forall n p y k, klist q e n -> lst p n -> inn y (lcx n) -> tok g k y -> C p 0 k).
    { intros n p y k HL Hn Hy Hk. destruct (klist_at _ _ _ HL) as (Hnn & Hx & _ & u & Er). destruct (mk_list _ OK n Hnn) as (_ & T1 & T2 & _).
      assert (LE : forall p k, lst p n -> tok g k (ls_end M n) -> C p 0 k).
      { intros p0 k0 Hp Hk0. destruct (lst_name _ _ Hp) as (_ & _ & b0 & pq & Hq & En & _). apply (clo_rule g F _ q e k1 (fst c) p0 pq (ls_end M n) k0); auto; [apply (KN (fst c)); auto; apply lk_inn; auto; apply inn_fst|rewrite En; auto|apply Hk1|].
        rewrite Er. apply F_head; auto. }
      destruct Hy as [-> | ->]; [|apply LE; auto]. destruct (lmore_get _ Hnn) as (p1 & Hp1).
      destruct (tok_used n (ls_end M n) (klist_used _ _ _ _ HL Hc) (or_intror eq_refl)) as [ke Hke].
      destruct (lst_name _ _ Hn) as (_ & _ & b0 & pq & Hq & En & _). apply (clo_rule g F _ p1 0 ke (ls_end M n) p pq (ls_sep M n) k); auto; [apply LE; auto; right; auto|rewrite En; apply (lmore_sym _ _ Hp1)|apply Hke|].
      destruct Hp1 as (_ & _ & H). rewrite (rul_rest _ _ _ _ _ H). apply F_head; auto. }
    intros p d k (y & Hy & [(-> & -> & Hl)|[(-> & s & m & c' & i & HK & Hmi & Hlv & Hl)|(-> & n & HL & Hn & Hl)]]); [eapply KN; eauto| |eapply LL; eauto].
    pose proof (kin_ctx _ _ _ _ _ _ HK Hc) as Hc'. destruct (tok_ctx _ _ _ Hc' (inn_fst c')) as [kc Hkc]. pose proof (kin_ok _ _ _ _ _ _ HK) as Hok.
    assert (ST : forall p d k y q' i b k', C p d k -> tok g k y -> sym_at g p d (SNon (E s i)) -> lev q' s i -> F (rest g p (S d) ++ [y]) b -> tok g k' b -> C q' 0 k').
    { clear -W. intros p d k y q' i b k' H Hy Hs (_ & _ & b' & pq & Hq & En & _) HF Hk. eapply clo_rule; eauto; [rewrite En; auto|apply Hy]. }
    (* an operator whose left operand has level [l] *)
    assert (OP : forall j f l, is_form M s j f -> fm_l f = true -> lo M s j = l -> (forall p, lev p s j -> C p 0 kc) -> forall k p, tok g k (fm_first f) -> lev p s l -> C p 0 k).
    { intros j f l Hf Hfl <- HC k0 p0 Hk Hp. destruct (form_get _ _ _ Hf) as (p1 & H0 & H1). pose proof (form_lev _ _ _ _ H0 Hf H1) as Hv.
      apply (ST p1 0 kc (fst c') p0 (lo M s j) (fm_first f) k0); auto.
      - rewrite (rul_at _ _ _ _ _ _ H1). unfold body, form_slots. rewrite Hfl. reflexivity.
      - destruct (rest_first _ _ _ _ Hfl H1) as [u ->]. cbn [app]. apply F_head; auto. eapply first_term; eauto. }
    assert (B0 : forall p y k, lev p s m -> inn y c' -> tok g k y -> C p 0 k).
    { intros p0 y0 k0 Hp Hy0 Hk0. pose proof (ctx_term _ _ _ Hc' Hy0) as Ht0. destruct HK as [HK|(n & HL & -> & -> & ->)].
      - destruct (kern_m _ _ _ _ _ _ HK) as [_ Hx].
        destruct (kern_rest _ _ _ _ _ _ HK) as (_ & [(-> & -> & -> & -> & ->)|[(s0 & i0 & f & pre & more & t & T & -> & -> & Er)|[(i0 & f & pre & T & Hr & -> & -> & Er)|(N & -> & -> & Er)]]]).
        + apply (ST 0 0 k0 y0 p0 0 y0 k0); auto; [apply (KN y0); auto; apply lk_inn; auto|]. rewrite (proj2 (rest_at _ _ _ _ rest0)). apply F_head; auto.
        + apply (ST q e k1 (fst c) p0 0 y0 k0); auto; [apply (KN (fst c)); auto; apply lk_inn; auto; apply inn_fst|]. apply inn_one in Hy0. subst y0. rewrite (proj2 (rest_at _ _ _ _ Er)). apply F_head; auto.
        + apply (ST q e k0 y0 p0 (ro M s i0) y0 k0); auto; [apply (KN y0); auto; apply lk_inn; auto|]. rewrite (proj2 (rest_at _ _ _ _ Er)). apply F_head; auto.
        + apply (ST q e k0 y0 p0 0 y0 k0); auto; [apply (KN y0); auto; apply lk_inn; auto|]. rewrite (proj2 (rest_at _ _ _ _ Er)). apply F_head; auto.
      - destruct (klist_at _ _ _ HL) as (Hnn & _). destruct (lone_get _ Hnn) as (p1 & Hp1). pose proof Hp1 as (_ & _ & H1).
        apply (ST p1 0 k0 y0 p0 0 y0 k0); auto; [apply (LL n p1 y0 k0); auto; left; auto|rewrite (rul_at _ _ _ _ _ _ H1); reflexivity|]. rewrite (rul_rest _ _ _ _ _ H1). apply F_head; auto. }
    assert (BA : forall p y k, lev p s m -> look s m c' y -> tok g k y -> C p 0 k).
    { intros p0 y0 k0 Hp [Hy0|(j & f & Hf & Hfl & Hlo & ->)] Hk; [eapply B0; eauto|].
      assert (Z : m = 0 -> C p0 0 k0).
      { intros E0. assert (Ej : lg_left M s j = true /\ j = 0) by (unfold lo in Hlo; destruct (lg_left M s j); split; auto; lia). destruct Ej as [Ej ->].
        apply (OP 0 f 0); auto; [unfold lo; rewrite Ej; reflexivity| |rewrite <- E0; auto]. intros p2 Hp2. rewrite <- E0 in Hp2. apply (B0 p2 (fst c') kc); auto. apply inn_fst. }
      destruct HK as [HK|(n & HL & -> & -> & ->)]; [|apply Z; auto]. destruct (kern_m _ _ _ _ _ _ HK) as [_ Hx].
      destruct (kern_rest _ _ _ _ _ _ HK) as (_ & [(-> & -> & -> & -> & ->)|[(s0 & i0 & f0 & pre & more & t & T & -> & -> & Er)|[(i0 & f0 & pre & T & Hr & Em & -> & Er)|(N & -> & -> & Er)]]]); [apply Z; auto..| |apply Z; auto].
      pose proof (tpos_lev _ _ _ _ _ _ _ T) as Hv.
      assert (D : lo M s j <= i0 \/ (j = m /\ lo M s j = m)).
      { subst m. unfold lo, ro in *. destruct (lg_left M s i0) eqn:E1, (lg_left M s j) eqn:E2; try (left; lia).
        - assert (D : j <= i0 \/ j = S i0) by lia. destruct D; auto.
        - left. assert (j <> i0) by (intros ->; congruence). lia. }
      destruct D as [D|[-> D]].
      - apply (ST q e k0 (fm_first f) p0 m (fm_first f) k0); auto.
        + apply (KN (fm_first f)); auto. apply (lk_lev _ _ _ _ _ Hv). right. exists j, f. auto.
        + rewrite (proj2 (rest_at _ _ _ _ Er)). apply F_head; auto. eapply first_term; eauto.
      - apply (OP m f m); auto. intros p2 Hp2. apply (B0 p2 (fst c) kc); auto. apply inn_fst. }
    assert (LO : forall t, m + t <= top s -> forall p y k, lev p s (m + t) -> look s (m + t) c' y -> tok g k y -> C p 0 k).
    { induction t as [|t IH]; intros Hn p0 y0 k0 Hp Hy0 Hk; [rewrite Nat.add_0_r in *; eapply BA; eauto|]. rewrite Nat.add_succ_r in *. specialize (IH ltac:(lia)).
      assert (Hs : s < lg_sorts M) by apply Hok.
      destruct (rul_get _ _ (lr_pass M s (m + t) Hs ltac:(lia))) as (p1 & H0 & H1).
      assert (Hv : lev p1 s (m + t)) by (split; [auto|split; [split; [auto|lia]|eauto]]).
      assert (G : forall p y k, lev p s (S (m + t)) -> look s (m + t) c' y -> tok g k y -> C p 0 k).
      { intros p' y' k' Hp' Hy' Hk'. apply (ST p1 0 k' y' p' (S (m + t)) y' k'); auto; [apply (IH p1 y' k'); auto|rewrite (rul_at _ _ _ _ _ _ H1); reflexivity|].
        rewrite (rul_rest _ _ _ _ _ H1). apply F_head; auto. eapply look_term; eauto. }
      destruct Hy0 as [Hy0|(j & f & Hf & Hfl & Hlo & ->)]; [apply (G p0 y0 k0); auto; apply look_inn; auto|].
      assert (D : lo M s j <= m + t \/ lo M s j = S (m + t)) by lia. destruct D as [D|D].
      - apply (G p0 (fm_first f) k0); auto. right. exists j, f. auto.
      - apply (OP j f (S (m + t))); auto. intros p' Hp'.
        assert (Ej : j = S (m + t) \/ j = m + t) by (unfold lo in D; destruct (lg_left M s j); lia). destruct Ej as [-> | ->].
        + apply (G p' (fst c') kc); auto. apply look_inn, inn_fst.
        + apply (IH p' (fst c') kc); auto. apply look_inn, inn_fst. }
    replace i with (m + (i - m)) in * by lia. apply (LO (i - m)) with (y := y); auto. destruct Hlv as (_ & [_ Hin] & _). lia.
  Qed.
  Lemma clo_one q e c : tval q e -> cq q c -> set_eq (clo g F (one q e c)) (T_set q e c).
  Proof using W HR HR' OK Hfresh Hfresh'. intros V Hc p d k. split; [apply clo_up; auto|apply clo_down; auto]. Qed.

  (** ** Shapes *)

  (** A state is after a terminal, after an expected expression or list, after part of an expression, or after the first element of a list. *)
  Inductive sh := ShT (q e : nat) | ShB (q e : nat) | ShP (s i : nat) | ShE (n : nat).
  Definition valid (z : sh) : Prop :=
    match z with
    | ShT q e => tval q e
    | ShB q e => (exists s m, forall c, exists c', kern q e s m c c') \/ exists n, klist q e n
    | ShP s i => s < lg_sorts M /\ 1 <= i <= top s
    | ShE n => n < ls_count M
    end.
  Definition sset (z : sh) (c : cxt) : lrset := match z with ShT q e => T_set q e c | ShB q e => B_set q e c | ShP s i => P_set s i c | ShE n => E_set n c end.
  Definition cx (z : sh) (c : cxt) : Prop := match z with ShT q _ | ShB q _ => cq q c | ShP s _ => ctx s c | ShE n => used n /\ c = lcx n end.
  Definition core (z : sh) (p d : nat) : Prop :=
    match z with
    | ShT q e => (p = q /\ d = e) \/ (d = 0 /\ exists s m i, (forall c, exists c', kin q e s m c c') /\ m <= i /\ lev p s i) \/ (d = 0 /\ exists n, klist q e n /\ lst p n)
    | ShB q e => (p = q /\ d = S e) \/ (d = 1 /\ exists s m, (forall c, exists c', kern q e s m c c') /\ lev p s m /\ sym_at g p 0 (SNon (E s m))) \/ (d = 1 /\ exists n, klist q e n /\ lmore p n)
    | ShP s i => d = 1 /\ exists j, (j = i \/ S j = i) /\ lev p s j /\ sym_at g p 0 (SNon (E s i))
    | ShE n => d = 1 /\ (lone p n \/ lev p (ls_sort M n) 0 /\ sym_at g p 0 (SNon (E (ls_sort M n) 0)))
    end.

  Lemma klist_pos q e n : klist q e n -> q <> 0 /\ e <> 0.
  Proof using OK.
    intros (s & i & f & pre & more & T). split; [apply T|]. intros ->. destruct (tpos_hot _ _ _ _ _ _ _ T) as (d & x & E0 & _). discriminate.
  Qed.
  Lemma kin_e q s m c c' : kin q 0 s m c c' -> q = 0.
  Proof using OK.
    intros H. apply kin_tval in H. destruct (tval_hot _ _ H) as [[-> _]|(_ & d & x & E0 & _)]; [auto|discriminate].
  Qed.
  Lemma kern_e q s m c c' : kern q 0 s m c c' -> q = 0.
  Proof using OK. intros H. eapply kin_e. left. exact H. Qed.
  Lemma valid_B q e : valid (ShB q e) -> tval q e /\ exists B, sym_at g q e (SNon B).
  Proof using W OK.
    intros [(s & m & H)|(n & H)]; [destruct (H eofc) as [c' K]; split; [eapply kern_tval; eauto|eexists; eapply kern_m; eauto]|split; [eapply klist_tval; eauto|eexists; eapply klist_at; eauto]].
  Qed.
  Lemma lst_0 p n : lst p n -> p <> 0.
  Proof. intros H. apply (lst_name _ _ H). Qed.

  (** The lookaheads of one item of a state: they depend on what follows outside, or not. *)
  Definition keeps (z : sh) (p d : nat) : Prop := (forall c, cx z c <-> cq p c) /\ forall c, cx z c -> forall k, sset z c p d k <-> exists y, tok g k y /\ lk p c y.
  Definition fixes (z : sh) (p d : nat) (t : cxt) : Prop := (forall c, cx z c -> cq p t) /\ forall c, cx z c -> forall k, sset z c p d k <-> exists y, tok g k y /\ lk p t y.
  Lemma kept_row q e c : forall k, T_set q e c q e k <-> exists y, tok g k y /\ lk q c y.
  Proof using OK.
    intros k. split; [|intros (y & Hy & H); exists y; auto]. intros (y & Hy & [(_ & _ & H)|[(-> & s & m & c' & i & HK & _ & (H0 & _) & _)|(-> & n & HL & _)]]); [eauto|..]; exfalso.
    - apply H0. eapply kin_e; eauto.
    - destruct (klist_pos _ _ _ HL). auto.
  Qed.
  Lemma inner_row q e c s m c' p i : kin q e s m c c' -> m <= i -> lev p s i -> forall k, T_set q e c p 0 k <-> exists y, tok g k y /\ lk p c' y.
  Proof using W OK.
    intros HK Hm Hl k. split.
    - intros (y & Hy & [(-> & <- & H)|[(_ & s1 & m1 & c1 & i1 & HK1 & _ & Hl1 & H)|(_ & n & _ & Hn & _)]]); exists y; split; auto.
      + exfalso. destruct Hl as [H0 _]. apply H0. eapply kin_e; eauto.
      + destruct (kin_fun _ _ _ _ _ _ _ _ _ HK HK1) as (<- & <- & <-). apply (lk_lev _ _ _ _ _ Hl1), H.
      + destruct (lst_lev _ _ _ _ Hn Hl).
    - intros (y & Hy & H). rewrite (lk_lev _ _ _ _ _ Hl) in H. exists y. split; auto. right. left. split; auto. exists s, m, c', i. auto.
  Qed.
  Lemma list_row q e c n p : klist q e n -> lst p n -> forall k, T_set q e c p 0 k <-> exists y, tok g k y /\ lk p (lcx n) y.
  Proof using W OK.
    intros HL Hn k. split.
    - intros (y & Hy & [(-> & <- & H)|[(_ & s1 & m1 & c1 & i1 & HK1 & _ & Hl1 & H)|(_ & n' & HL' & Hn' & H)]]); exists y; split; auto.
      + destruct (klist_pos _ _ _ HL). congruence.
      + destruct (lst_lev _ _ _ _ Hn Hl1).
      + rewrite (klist_fun _ _ _ _ HL HL'). apply (lk_lst _ _ _ _ Hn'), H.
    - intros (y & Hy & H). rewrite (lk_lst _ _ _ _ Hn) in H. exists y. split; auto. right. right. split; auto. exists n. auto.
  Qed.
  Lemma kept_row_B q e c : forall k, B_set q e c q (S e) k <-> exists y, tok g k y /\ lk q c y.
  Proof using OK.
    intros k. split; [|intros (y & Hy & H); exists y; auto]. intros (y & Hy & [(_ & _ & H)|[(E0 & s & m & c' & HK & (H0 & _) & _)|(E0 & n & HL & _)]]); [eauto|..]; exfalso; injection E0 as ->.
    - apply H0. eapply kern_e; eauto.
    - destruct (klist_pos _ _ _ HL). auto.
  Qed.
  Lemma inner_row_B q e c s m c' p : kern q e s m c c' -> lev p s m -> sym_at g p 0 (SNon (E s m)) -> forall k, B_set q e c p 1 k <-> exists y, tok g k y /\ lk p c' y.
  Proof using W OK.
    intros HK Hl Hs k. split.
    - intros (y & Hy & [(-> & E0 & H)|[(_ & s1 & m1 & c1 & HK1 & Hl1 & _ & H)|(_ & n & HL & _)]]); exists y; split; auto.
      + exfalso. injection E0 as <-. destruct Hl as [H0 _]. apply H0. eapply kern_e; eauto.
      + destruct (kern_fun _ _ _ _ _ _ _ _ _ HK HK1) as (<- & <- & <-). apply (lk_lev _ _ _ _ _ Hl1), H.
      + destruct (kern_klist _ _ _ _ _ _ _ HK HL).
    - intros (y & Hy & H). rewrite (lk_lev _ _ _ _ _ Hl) in H. exists y. split; auto. right. left. split; auto. exists s, m, c'. auto.
  Qed.
  Lemma list_row_B q e c n p : klist q e n -> lmore p n -> forall k, B_set q e c p 1 k <-> exists y, tok g k y /\ lk p (lcx n) y.
  Proof using W OK.
    intros HL Hn k. split.
    - intros (y & Hy & [(-> & E0 & H)|[(_ & s1 & m1 & c1 & HK1 & _)|(_ & n' & HL' & Hn' & H)]]); exists y; split; auto.
      + destruct (klist_pos _ _ _ HL). congruence.
      + destruct (kern_klist _ _ _ _ _ _ _ HK1 HL).
      + rewrite (klist_fun _ _ _ _ HL HL'). apply (lk_lst _ _ _ _ (or_intror Hn')), H.
    - intros (y & Hy & H). rewrite (lk_lst _ _ _ _ (or_intror Hn)) in H. exists y. split; auto. right. right. split; auto. exists n. auto.
  Qed.
  Lemma row_P s i c p j : (j = i \/ S j = i) -> lev p s j -> sym_at g p 0 (SNon (E s i)) -> forall k, P_set s i c p 1 k <-> exists y, tok g k y /\ lk p c y.
  Proof using OK.
    intros Hj Hl Hs k. split.
    - intros (y & Hy & _ & j' & _ & Hl' & _ & H). exists y. split; auto. apply (lk_lev _ _ _ _ _ Hl'), H.
    - intros (y & Hy & H). rewrite (lk_lev _ _ _ _ _ Hl) in H. exists y. split; auto. split; auto. exists j. auto.
  Qed.
  Lemma row_E1 n c p : lone p n -> forall k, E_set n c p 1 k <-> exists y, tok g k y /\ lk p c y.
  Proof using OK.
    intros Hn k. split.
    - intros (y & Hy & _ & [(_ & H)|(Hl & _)]); [exists y; split; auto; apply (lk_lst _ n _ _ (or_introl Hn)), H|]. destruct (lst_lev _ _ _ _ (or_introl Hn) Hl).
    - intros (y & Hy & H). rewrite (lk_lst _ n _ _ (or_introl Hn)) in H. exists y. auto.
  Qed.
  Lemma row_E2 n c p : lev p (ls_sort M n) 0 -> sym_at g p 0 (SNon (E (ls_sort M n) 0)) -> forall k, E_set n c p 1 k <-> exists y, tok g k y /\ lk p c y.
  Proof using OK.
    intros Hl Hs k. split.
    - intros (y & Hy & _ & [(Hn & _)|(_ & _ & H)]); [destruct (lst_lev _ _ _ _ (or_introl Hn) Hl)|]. exists y. split; auto. apply (lk_lev _ _ _ _ _ Hl), H.
    - intros (y & Hy & H). rewrite (lk_lev _ _ _ _ _ Hl) in H. exists y. split; auto.
  Qed.
  Lemma row z p d : valid z -> core z p d -> keeps z p d \/ exists t, fixes z p d t.
  Proof using W OK.
    intros V H. destruct z as [q e|q e|s i|n]; cbn [valid core] in *; unfold keeps, fixes; cbn [cx sset].
    - destruct H as [[-> ->]|[(-> & s & m & i & HK & Hi & Hl)|(-> & n & HL & Hn)]]; [left; split; [tauto|intros c _; apply kept_row]|..].
      + destruct (HK eofc) as [c0 HK0]. destruct (kin_kind _ _ _ _ _ _ HK0) as [(t & H1 & H2)|(i0 & Hl0 & H2)].
        * right. exists t. split; [intros c Hc; apply (cq_lev _ _ _ _ Hl); eauto|]. intros c Hc. eapply inner_row; eauto.
        * left. split; [intros c; rewrite (cq_lev _ _ _ _ Hl), (cq_lev _ _ _ _ Hl0); tauto|]. intros c Hc. eapply inner_row; eauto.
      + right. exists (lcx n). split; [|intros c Hc; apply list_row; auto]. intros c Hc. apply (cq_lst _ _ _ Hn). split; auto. eapply klist_used; eauto.
    - destruct H as [[-> ->]|[(-> & s & m & HK & Hl & Hs)|(-> & n & HL & Hn)]]; [left; split; [tauto|intros c _; apply kept_row_B]|..].
      + destruct (HK eofc) as [c0 HK0]. destruct (kin_kind _ _ _ _ _ _ (or_introl HK0)) as [(t & H1 & H2)|(i0 & Hl0 & H2)].
        * right. exists t. split; [intros c Hc; apply (cq_lev _ _ _ _ Hl); eauto|]. intros c Hc. destruct (HK c) as [c' HK']. destruct (kin_fun _ _ _ _ _ _ _ _ _ (H2 c Hc) (or_introl HK')) as (_ & _ & ->). eapply inner_row_B; eauto.
        * left. split; [intros c; rewrite (cq_lev _ _ _ _ Hl), (cq_lev _ _ _ _ Hl0); tauto|]. intros c Hc. destruct (HK c) as [c' HK']. destruct (kin_fun _ _ _ _ _ _ _ _ _ (H2 c) (or_introl HK')) as (_ & _ & Ec).
          rewrite <- Ec in HK'. eapply inner_row_B; eauto.
      + right. exists (lcx n). split; [|intros c Hc; apply list_row_B; auto]. intros c Hc. apply (cq_lst _ _ _ (or_intror Hn)). split; auto. eapply klist_used; eauto.
    - destruct H as (-> & j & Hj & Hl & Hs). left. split; [intros c; rewrite (cq_lev _ _ _ _ Hl); tauto|]. intros c _. eapply row_P; eauto.
    - destruct H as (-> & [Hn|(Hl & Hs)]).
      + left. split; [intros c; rewrite (cq_lst _ n _ (or_introl Hn)); tauto|]. intros c _. apply row_E1; auto.
      + right. exists (lcx n). split; intros c [Hu ->]; [apply (cq_lev _ _ _ _ Hl), used_ctx, Hu|]. apply row_E2; auto.
  Qed.

  Lemma core_ok z c p d : valid z -> cx z c -> ((exists k, sset z c p d k) <-> core z p d).
  Proof using W HR' OK.
    intros V Hc. split.
    - intros [k H]. destruct z as [q e|q e|s i|n]; cbn [sset core] in *.
      + destruct H as (y & _ & [(-> & -> & _)|[(-> & s & m & c' & i & HK & Hi & Hl & _)|(-> & n & HL & Hn & _)]]); [auto|right; left|right; right; eauto]. split; auto. exists s, m, i. split; auto. eapply kin_all; eauto.
      + destruct H as (y & _ & [(-> & -> & _)|[(-> & s & m & c' & HK & Hl & Hs & _)|(-> & n & HL & Hn & _)]]); [auto|right; left|right; right; eauto]. split; auto. exists s, m. split; auto. eapply kern_all; eauto.
      + destruct H as (y & _ & -> & j & Hj & Hl & Hs & _). eauto 10.
      + destruct H as (y & _ & -> & [(Hn & _)|(Hl & Hs & _)]); auto.
    - intros H. destruct (row z p d V H) as [(R1 & R2)|(t & R1 & R2)].
      + apply R1 in Hc as Hc'. destruct (tok_cq _ _ _ Hc' (inn_fst c)) as [k Hk]. exists k. apply (R2 c Hc). exists (fst c). split; auto. apply lk_inn; auto. apply inn_fst.
      + pose proof (R1 c Hc) as Hc'. destruct (tok_cq _ _ _ Hc' (inn_fst t)) as [k Hk]. exists k. apply (R2 c Hc). exists (fst t). split; auto. apply lk_inn; auto. apply inn_fst.
  Qed.
  Lemma sset_core z c p d k : valid z -> cx z c -> sset z c p d k -> core z p d.
  Proof using W HR' OK. intros V Hc H. apply (core_ok z c p d V Hc). eauto. Qed.

  Lemma at_fun p d x y : sym_at g p d x -> sym_at g p d y -> x = y.
  Proof. intros (pr & H & Hx) (pr' & H' & Hx'). congruence. Qed.
  (** Names come after the dot only in states after a terminal. *)
  Lemma kern_next q e s m c c' x : kern q e s m c c' -> sym_at g q (S e) x -> c' = (x, x) /\ terminal x /\ exists s0 i f pre more, tpos q e s0 i f pre (PArg s x :: more).
  Proof using W OK.
    intros HK Hx. destruct (kern_rest _ _ _ _ _ _ HK) as (_ & [(-> & -> & -> & -> & ->)|[(s0 & i & f & pre & more & t & T & -> & -> & Er)|[(i & f & pre & T & Hr & -> & -> & Er)|(N & -> & -> & Er)]]]).
    - apply at_rest in Hx. rewrite (proj2 (rest_at _ _ _ _ rest0)) in Hx. discriminate.
    - apply at_rest in Hx. rewrite (proj2 (rest_at _ _ _ _ Er)) in Hx. injection Hx as <- _. split; auto. split; [|eauto 10].
      destruct T as (_ & Hf & _ & Em & _). eapply (arg_slot s0 i f s t); eauto. rewrite Em. apply in_or_app. right. left. reflexivity.
    - apply at_rest in Hx. rewrite (proj2 (rest_at _ _ _ _ Er)) in Hx. discriminate.
    - apply at_rest in Hx. rewrite (proj2 (rest_at _ _ _ _ Er)) in Hx. discriminate.
  Qed.
  Lemma lone_1 p n x : lone p n -> ~ sym_at g p 1 x.
  Proof. intros H Hx. destruct (lone_at _ _ _ _ H Hx). discriminate. Qed.
  Lemma lmore_1 p n x : lmore p n -> sym_at g p 1 x -> x = ls_sep M n.
  Proof. intros H Hx. destruct (lmore_at _ _ _ _ H Hx) as [[E0 _]|[[_ H1]|[E0 _]]]; auto; discriminate. Qed.
  Lemma lmore_n p n : lmore p n -> n < ls_count M.
  Proof. intros (_ & H & _). exact H. Qed.
  Lemma core_sym z p d x : valid z -> core z p d -> sym_at g p d x -> (exists q e, z = ShT q e) \/ terminal x.
  Proof using W HR OK.
    intros V Hc Hx. destruct z as [q e|q e|s i|n]; cbn [core] in *; [left; eauto|right..].
    - destruct Hc as [[-> ->]|[(-> & s & m & HK & Hl & Hs)|(-> & n & HL & Hn)]].
      + destruct V as [(s0 & m0 & HK0)|(n & HL)].
        * destruct (HK0 eofc) as [c0 HK]. destruct (kern_next _ _ _ _ _ _ _ HK Hx) as (_ & Ht & _). exact Ht.
        * destruct (klist_at _ _ _ HL) as (Hnn & _ & Hx' & _). rewrite (at_fun _ _ _ _ Hx Hx'). apply (mk_list _ OK n Hnn).
      + destruct (name_next _ _ _ _ _ Hl Hs Hx) as (f & Hf & _ & -> & _). eapply first_term; eauto.
      + rewrite (lmore_1 _ _ _ Hn Hx). apply (mk_list _ OK n), (lmore_n _ _ Hn).
    - destruct Hc as (-> & j & _ & Hl & Hs). destruct (name_next _ _ _ _ _ Hl Hs Hx) as (f & Hf & _ & -> & _). eapply first_term; eauto.
    - destruct Hc as (-> & [Hn|(Hl & Hs)]); [destruct (lone_1 _ _ _ Hn Hx)|]. destruct (name_next _ _ _ _ _ Hl Hs Hx) as (f & Hf & _ & -> & _). eapply first_term; eauto.
  Qed.
  Lemma kern_s q e s m s' m' : (forall c, exists c', kern q e s m c c') -> (forall c, exists c', kern q e s' m' c c') -> s = s' /\ m = m'.
  Proof using W OK. intros H H'. destruct (H eofc) as [c1 K1], (H' eofc) as [c2 K2]. destruct (kern_fun _ _ _ _ _ _ _ _ _ K1 K2) as (-> & -> & _). auto. Qed.
  Lemma kin_s q e s m s' m' : (forall c, exists c', kin q e s m c c') -> (forall c, exists c', kin q e s' m' c c') -> s = s' /\ m = m'.
  Proof using W OK. intros H H'. destruct (H eofc) as [c1 K1], (H' eofc) as [c2 K2]. destruct (kin_fun _ _ _ _ _ _ _ _ _ K1 K2) as (-> & -> & _). auto. Qed.
  Lemma kin_at q e s m c c' : kin q e s m c c' -> exists B, sym_at g q e (SNon B).
  Proof using W OK. intros [H|(n & H & _)]; eexists; [eapply kern_m; eauto|eapply klist_at; eauto]. Qed.
  Lemma lst_begins p n x : lst p n -> sym_at g p 0 x -> ~ terminal x.
  Proof. intros [H|H] Hx Ht; [destruct (lone_at _ _ _ _ H Hx) as [_ ->]|destruct (lmore_at _ _ _ _ H Hx) as [[_ ->]|[[E0 _]|[E0 _]]]; try discriminate]; eapply Ht; reflexivity. Qed.

  (** A terminal comes after the dot in one item of a state. *)
  Lemma one_item z p d p' d' x : valid z -> core z p d -> core z p' d' -> sym_at g p d x -> sym_at g p' d' x -> terminal x -> p = p' /\ d = d'.
  Proof using W HR HU OK.
    intros V Hc Hc' Hx Hx' Ht. destruct z as [q e|q e|s i|n]; cbn [valid core] in *.
    - assert (N : forall s m, (forall c, exists c', kin q e s m c c') -> sym_at g q e x -> False).
      { intros s m HK HB. destruct (HK eofc) as [c' K]. destruct (kin_at _ _ _ _ _ _ K) as [B HB']. apply (Ht B). eapply at_fun; eauto. }
      destruct Hc as [[-> ->]|[(-> & s & m & i & HK & Hi & Hl)|(-> & n & HL & Hn)]]; [| |destruct (lst_begins _ _ _ Hn Hx Ht)];
        (destruct Hc' as [[-> ->]|[(-> & s' & m' & i' & HK' & Hi' & Hl')|(-> & n' & HL' & Hn')]]; [| |destruct (lst_begins _ _ _ Hn' Hx' Ht)]); auto; try (exfalso; eapply N; eauto; fail).
      split; auto. destruct (kin_s _ _ _ _ _ _ HK HK') as [<- <-]. destruct (first_token _ _ _ _ Hl Hx Ht) as (f & Hf & Hfl & Ef & H), (first_token _ _ _ _ Hl' Hx' Ht) as (f' & Hf' & Hfl' & Ef' & H').
      eapply (same_first p p' s i i' f f'); eauto; try congruence; [apply Hl|apply Hl'].
    - assert (N : forall s m p, (forall c, exists c', kern q e s m c c') -> lev p s m -> sym_at g p 0 (SNon (E s m)) -> sym_at g p 1 x -> sym_at g q (S e) x -> False).
      { intros s m p1 HK Hl Hs Hx1 Hq. destruct (HK eofc) as [c' K]. destruct (kern_next _ _ _ _ _ _ _ K Hq) as (_ & _ & s0 & i & f & pre & more & T).
        destruct (name_next _ _ _ _ _ Hl Hs Hx1) as (f1 & Hf1 & Hfl1 & Ef1 & _). destruct T as (_ & Hf & _ & Em & _).
        eapply (mk_apart _ OK s m f1 s0 i f x Hf1 Hfl1 Hf); [|auto]. rewrite Em. apply in_or_app. right. left. reflexivity. }
      assert (NL : forall n p, klist q e n -> lmore p n -> sym_at g p 1 x -> sym_at g q (S e) x -> False).
      { intros n p1 HL Hn H1 H2. destruct (klist_at _ _ _ HL) as (Hnn & _ & H3 & _). apply (mk_list _ OK n Hnn). rewrite <- (lmore_1 _ _ _ Hn H1). eapply at_fun; eauto. }
      assert (NK : forall s m n, (forall c, exists c', kern q e s m c c') -> klist q e n -> False) by (intros s m n HK HL; destruct (HK eofc) as [c' K]; eapply kern_klist; eauto).
      destruct Hc as [[-> ->]|[(-> & s & m & HK & Hl & Hs)|(-> & n & HL & Hn)]], Hc' as [[-> ->]|[(-> & s' & m' & HK' & Hl' & Hs')|(-> & n' & HL' & Hn')]]; auto;
        try (exfalso; eapply N; eauto; fail); try (exfalso; eapply NL; eauto; fail); try (exfalso; eapply NK; eauto; fail).
      + split; auto. destruct (kern_s _ _ _ _ _ _ HK HK') as [<- <-]. destruct (name_next _ _ _ _ _ Hl Hs Hx) as (f & Hf & Hfl & Ef & _ & H), (name_next _ _ _ _ _ Hl' Hs' Hx') as (f' & Hf' & Hfl' & Ef' & _ & H').
        eapply (same_first p p' s m m f f'); eauto; try congruence; [apply Hl|apply Hl'].
      + split; auto. rewrite <- (klist_fun _ _ _ _ HL HL') in Hn'. eapply lmore_one; eauto.
    - destruct Hc as (-> & j & Hj & Hl & Hs), Hc' as (-> & j' & Hj' & Hl' & Hs'). split; auto.
      destruct (name_next _ _ _ _ _ Hl Hs Hx) as (f & Hf & Hfl & Ef & _ & H), (name_next _ _ _ _ _ Hl' Hs' Hx') as (f' & Hf' & Hfl' & Ef' & _ & H').
      eapply (same_first p p' s j j' f f'); eauto; try congruence; [apply Hl|apply Hl'].
    - destruct Hc as (-> & [Hn|(Hl & Hs)]); [destruct (lone_1 _ _ _ Hn Hx)|]. destruct Hc' as (-> & [Hn'|(Hl' & Hs')]); [destruct (lone_1 _ _ _ Hn' Hx')|]. split; auto.
      destruct (name_next _ _ _ _ _ Hl Hs Hx) as (f & Hf & Hfl & Ef & _ & H), (name_next _ _ _ _ _ Hl' Hs' Hx') as (f' & Hf' & Hfl' & Ef' & _ & H').
      eapply (same_first p p' (ls_sort M n) 0 0 f f'); eauto; try congruence; [apply Hl|apply Hl'].
  Qed.

  (** The dot after a terminal. *)
  Lemma core_lev z p d : valid z -> core z p d -> (p = 0 /\ (z = ShT 0 0 \/ z = ShB 0 0)) \/ (exists n, lst p n) \/ exists s i, lev p s i.
  Proof using W OK.
    intros V Hc. destruct z as [q e|q e|s i|n]; cbn [core] in *.
    - destruct Hc as [[-> ->]|[(-> & s & m & i & _ & _ & Hl)|(-> & n & HL & Hn)]]; eauto. destruct (tval_hot _ _ V) as [[-> ->]|(H0 & _)]; auto. destruct (tval_lev _ _ V) as [H|H]; auto. congruence.
    - destruct Hc as [[-> ->]|[(-> & s & m & _ & Hl & _)|(-> & n & HL & Hn)]]; eauto; [|right; left; exists n; right; auto]. destruct (valid_B _ _ V) as [K _].
      destruct (tval_hot _ _ K) as [[-> ->]|(H0 & _)]; auto. destruct (tval_lev _ _ K) as [H|H]; auto. congruence.
    - destruct Hc as (-> & j & _ & Hl & _). eauto.
    - destruct Hc as (-> & [Hn|(Hl & _)]); [right; left; exists n; left; auto|eauto].
  Qed.
  Lemma after_terminal z p d x : valid z -> core z p d -> sym_at g p d x -> terminal x -> tval p (S d).
  Proof using W HR OK.
    intros V Hc Hx Ht. destruct (core_lev _ _ _ V Hc) as [(-> & _)|[(n & [Hn|Hn])|(s & i & Hl)]].
    - exfalso. rewrite (rul_at _ _ _ _ _ _ rul0) in Hx. destruct d as [|[|d]]; try discriminate. injection Hx as <-. eapply Ht; reflexivity.
    - exfalso. destruct (lone_at _ _ _ _ Hn Hx) as [_ ->]. eapply Ht; reflexivity.
    - destruct (lmore_at _ _ _ _ Hn Hx) as [[_ ->]|[[-> _]|[_ ->]]]; [exfalso; eapply Ht; reflexivity| |exfalso; eapply Ht; reflexivity]. right. right. eauto.
    - right. left. pose proof Hl as (H0 & _). destruct (lev_rule _ _ _ Hl) as [(f & Hf & H)|(Hi & H)].
      + destruct (tpos_make _ _ _ _ _ _ H0 Hf H Hx Ht) as (pre & more & T). eauto 10.
      + exfalso. rewrite (rul_at _ _ _ _ _ _ H) in Hx. destruct d as [|[|d]]; try discriminate. injection Hx as <-. eapply Ht; reflexivity.
  Qed.

  (** ** Moves *)

  Lemma eqs_trans (A B C : lrset) : set_eq A B -> set_eq B C -> set_eq A C.
  Proof. intros H H' p d k. rewrite (H p d k). apply H'. Qed.
  Lemma eqs_sym (A B : lrset) : set_eq A B -> set_eq B A.
  Proof. intros H p d k. symmetry. apply H. Qed.
  Lemma move_one z c p d x c1 : valid z -> cx z c -> core z p d -> sym_at g p d x -> terminal x -> (forall k, sset z c p d k <-> exists y, tok g k y /\ lk p c1 y) -> cq p c1 ->
    set_eq (clo g F (move g (sset z c) x)) (sset (ShT p (S d)) c1).
  Proof using W HR HR' HU OK Hfresh Hfresh'.
    intros V Hc Hcore Hx Ht Hrow Hq. eapply eqs_trans; [|apply clo_one; [eapply after_terminal; eauto|exact Hq]].
    apply clo_eq. intros p' d' k'. unfold one, move. split.
    + intros (d1 & -> & H1 & Hx1). destruct (one_item z p' d1 p d x V) as [-> ->]; auto; [eapply sset_core; eauto|]. apply Hrow in H1 as (y & Hy & H1). exists y. auto.
    + intros (y & Hy & -> & -> & H1). exists d. split; auto. split; auto. apply Hrow. eauto.
  Qed.
  Lemma still z c : valid z -> cx z c -> (forall q e, z <> ShT q e) -> set_eq (clo g F (sset z c)) (sset z c).
  Proof using W HR HR' OK.
    intros V Hc Hz. apply clo_still. intros p d k B H Hx.
    destruct (core_sym z p d _ V (sset_core _ _ _ _ _ V Hc H) Hx) as [(q & e & ->)|Ht]; [eapply Hz; reflexivity|eapply Ht; reflexivity].
  Qed.
  (** The levels of the names at the beginnings of rules. *)
  Lemma first_level p s i j : lev p s i -> ok s j -> sym_at g p 0 (SNon (E s j)) -> j = i \/ j = S i.
  Proof using HR OK.
    intros Hl Ho Hs. destruct (first_name _ _ _ _ Hl Hs) as [(f & Hf & Hfl & En & Ho' & H)|(Hi & En & H)].
    - apply E_inj in En as [_ ->]; auto. unfold lo. destruct (lg_left M s i); auto.
    - apply E_inj in En as [_ ->]; auto. destruct Hl as (_ & [Hs' _] & _). split; auto.
  Qed.
  Lemma other n s j : n < ls_count M -> ok s j -> ls_name M n <> E s j.
  Proof using OK. intros Hn [Hs Hj]. apply (mk_other _ OK); auto. Qed.
  Lemma kin_m q e s m c c' : kin q e s m c c' -> ok s m.
  Proof using W OK. intros [H|(n & H & -> & -> & _)]; [eapply kern_m; eauto|]. split; [|lia]. destruct (klist_at _ _ _ H) as (Hn & _). apply (mk_list _ OK n Hn). Qed.
  Lemma lst_first p n x : lst p n -> sym_at g p 0 (SNon x) -> x = ls_name M n /\ lmore p n \/ x = E (ls_sort M n) 0 /\ lone p n.
  Proof.
    intros [H|H] Hx; [right; destruct (lone_at _ _ _ _ H Hx) as [_ Ex]|left; destruct (lmore_at _ _ _ _ H Hx) as [[_ Ex]|[[E0 _]|[E0 _]]]; try discriminate]; injection Ex as ->; auto.
  Qed.
  Lemma lst_n p n : lst p n -> n < ls_count M.
  Proof. intros [(_ & H & _)|(_ & H & _)]; exact H. Qed.
  Lemma first_E p s i B : lev p s i -> sym_at g p 0 (SNon B) -> exists j, B = E s j /\ ok s j.
  Proof using HR OK. intros Hl Hx. destruct (first_name _ _ _ _ Hl Hx) as [(f & Hf & Hfl & -> & Ho & _)|(Hi & -> & _)]; eexists; split; eauto. destruct Hl as (_ & [Hs _] & _). split; auto. Qed.
  Lemma move_B q e c s m c' : kern q e s m c c' -> cq q c -> set_eq (clo g F (move g (sset (ShT q e) c) (SNon (E s m)))) (sset (ShB q e) c).
  Proof using W HR HR' OK.
    intros HK Hc. pose proof (kern_all _ _ _ _ _ _ HK) as HA. assert (V : valid (ShB q e)) by (left; exists s, m; exact HA).
    eapply eqs_trans; [|apply still; [exact V|exact Hc|discriminate]]. destruct (kern_m _ _ _ _ _ _ HK) as [Hok Hkm].
    apply clo_eq. intros p d k. cbn [sset]. unfold move, T_set, B_set. split.
    - intros (d1 & -> & (y & Hy & [(-> & -> & H1)|[(-> & s1 & m1 & c1 & i & HK1 & Hi & Hl & H1)|(-> & n & HL & _)]]) & Hx1); [exists y; split; auto..|destruct (kern_klist _ _ _ _ _ _ _ HK HL)]. right. left. split; auto.
      destruct (kin_fun _ _ _ _ _ _ _ _ _ (or_introl HK) HK1) as (<- & <- & <-). destruct (first_level _ _ _ _ Hl Hok Hx1) as [<- | ->]; [|lia]. exists s, m, c'. auto.
    - intros (y & Hy & [(-> & -> & H1)|[(-> & s1 & m1 & c1 & HK1 & Hl & Hs & H1)|(-> & n & HL & _)]]); [exists e|exists 0|destruct (kern_klist _ _ _ _ _ _ _ HK HL)]; (split; [reflexivity|split; auto]).
      + exists y. auto.
      + exists y. split; auto. right. left. split; auto. exists s1, m1, c1, m1. split; [left; auto|auto].
      + destruct (kern_fun _ _ _ _ _ _ _ _ _ HK HK1) as (<- & <- & <-). exact Hs.
  Qed.
  Lemma move_BL q e c n : klist q e n -> cq q c -> set_eq (clo g F (move g (sset (ShT q e) c) (SNon (ls_name M n)))) (sset (ShB q e) c).
  Proof using W HR HR' OK.
    intros HL Hc. assert (V : valid (ShB q e)) by (right; exists n; exact HL).
    eapply eqs_trans; [|apply still; [exact V|exact Hc|discriminate]]. destruct (klist_at _ _ _ HL) as (Hn & Hat & _).
    apply clo_eq. intros p d k. cbn [sset]. unfold move, T_set, B_set. split.
    - intros (d1 & -> & (y & Hy & [(-> & -> & H1)|[(-> & s1 & m1 & c1 & i & HK1 & Hi & Hl & H1)|(-> & n' & HL' & Hl & H1)]]) & Hx1); [exists y; split; auto..|].
      + exfalso. destruct (first_E _ _ _ _ Hl Hx1) as (j & En & Ho & Hj). eapply (mk_other _ OK); eauto.
      + rewrite <- (klist_fun _ _ _ _ HL HL') in *. exists y. split; auto. right. right. split; auto. exists n. split; auto.
        destruct (lst_first _ _ _ Hl Hx1) as [[_ H]|[En _]]; auto. exfalso. apply (mk_other _ OK n (ls_sort M n) 0 Hn); [apply (mk_list _ OK n Hn)|lia|auto].
    - intros (y & Hy & [(-> & -> & H1)|[(-> & s1 & m1 & c1 & HK1 & _)|(-> & n' & HL' & Hm & H1)]]); [exists e|destruct (kern_klist _ _ _ _ _ _ _ HK1 HL)|exists 0]; (split; [reflexivity|split; auto]).
      + exists y. auto.
      + exists y. split; auto. right. right. split; auto. exists n'. split; auto. split; auto. right; auto.
      + rewrite (klist_fun _ _ _ _ HL HL'). apply (lmore_sym _ _ Hm).
  Qed.
  Lemma move_P q e c s m c' j : kin q e s m c c' -> cq q c -> m < j <= top s -> set_eq (clo g F (move g (sset (ShT q e) c) (SNon (E s j)))) (sset (ShP s j) c').
  Proof using W HR HR' OK.
    intros HK Hc Hj. pose proof (kin_m _ _ _ _ _ _ HK) as Hok. assert (V : valid (ShP s j)) by (split; [apply Hok|lia]).
    eapply eqs_trans; [|apply still; [exact V|exact (kin_ctx _ _ _ _ _ _ HK Hc)|discriminate]]. assert (Hoj : ok s j) by (split; [apply Hok|lia]).
    apply clo_eq. intros p d k. cbn [sset]. unfold move, T_set, P_set. split.
    - intros (d1 & -> & (y & Hy & [(-> & -> & H1)|[(-> & s1 & m1 & c1 & i & HK1 & Hi & Hl & H1)|(-> & n & HL & Hl & H1)]]) & Hx1).
      + exfalso. destruct HK as [HK|(n & HL & _)].
        * destruct (kern_m _ _ _ _ _ _ HK) as [_ Hkm]. pose proof (nt_fun _ _ _ _ _ Hx1 Hkm) as En. apply E_inj in En as [_ En]; auto. lia.
        * destruct (klist_at _ _ _ HL) as (Hn & Hat & _). pose proof (nt_fun _ _ _ _ _ Hat Hx1) as En. apply (other n s j); auto.
      + destruct (kin_fun _ _ _ _ _ _ _ _ _ HK HK1) as (<- & <- & <-). exists y. split; auto. split; auto. exists i. split; [|auto].
        destruct (first_level _ _ _ _ Hl Hoj Hx1); auto.
      + exfalso. pose proof (lst_n _ _ Hl) as Hn. destruct (lst_first _ _ _ Hl Hx1) as [[En _]|[En _]]; [apply (other n s j); auto|].
        apply E_inj in En as [_ ->]; auto; [lia|]. split; [apply (mk_list _ OK n Hn)|lia].
    - intros (y & Hy & -> & i & Hi & Hl & Hs & H1). exists 0. split; auto. split; auto. exists y. split; auto. right. left. split; auto. exists s, m, c', i. split; auto. split; [lia|auto].
  Qed.
  Lemma move_E q e c n : klist q e n -> cq q c -> set_eq (clo g F (move g (sset (ShT q e) c) (SNon (E (ls_sort M n) 0)))) (sset (ShE n) (lcx n)).
  Proof using W HR HR' OK.
    intros HL Hc. destruct (klist_at _ _ _ HL) as (Hn & Hat & _). assert (V : valid (ShE n)) by exact Hn.
    eapply eqs_trans; [|apply still; [exact V|split; [eapply klist_used; eauto|reflexivity]|discriminate]].
    assert (Ho : ok (ls_sort M n) 0) by (split; [apply (mk_list _ OK n Hn)|lia]). assert (HK : kin q e (ls_sort M n) 0 c (lcx n)) by (right; exists n; auto).
    apply clo_eq. intros p d k. cbn [sset]. unfold move, T_set, E_set. split.
    - intros (d1 & -> & (y & Hy & [(-> & -> & H1)|[(-> & s1 & m1 & c1 & i & HK1 & Hi & Hl & H1)|(-> & n' & HL' & Hl & H1)]]) & Hx1).
      + exfalso. pose proof (nt_fun _ _ _ _ _ Hat Hx1) as En. apply (other n (ls_sort M n) 0); auto.
      + destruct (kin_fun _ _ _ _ _ _ _ _ _ HK HK1) as (<- & <- & <-). exists y. split; auto. split; auto. right. destruct (first_level _ _ _ _ Hl Ho Hx1) as [<-|E0]; [auto|discriminate].
      + rewrite <- (klist_fun _ _ _ _ HL HL') in *. exists y. split; auto. split; auto. left. split; auto.
        destruct (lst_first _ _ _ Hl Hx1) as [[En _]|[_ H]]; auto. exfalso. apply (mk_other _ OK n (ls_sort M n) 0 Hn); [apply Ho|apply Ho|auto].
    - intros (y & Hy & -> & [(Hl & H1)|(Hl & Hs & H1)]); exists 0; (split; [auto|split]); auto.
      + exists y. split; auto. right. right. split; auto. exists n. split; auto. split; auto. left. auto.
      + destruct Hl as (_ & _ & Hl). rewrite (rul_at _ _ _ _ _ _ Hl). reflexivity.
      + exists y. split; auto. right. left. split; auto. exists (ls_sort M n), 0, (lcx n), 0. auto.
  Qed.

  (** Where a state goes over a symbol. *)
  Lemma goto_shape z x p d : valid z -> core z p d -> sym_at g p d x -> exists z', valid z' /\
    (((forall c, cx z c <-> cx z' c) /\ forall c, cx z c -> set_eq (clo g F (move g (sset z c) x)) (sset z' c)) \/
     (exists t, (forall c, cx z c -> cx z' t) /\ forall c, cx z c -> set_eq (clo g F (move g (sset z c) x)) (sset z' t))).
  Proof using W HR HR' HU OK Hfresh Hfresh'.
    intros V Hcore Hx. assert (D : terminal x \/ exists B, x = SNon B) by (destruct x; try (left; intros ? ?; discriminate); eauto).
    destruct D as [Ht|(B & ->)].
    - exists (ShT p (S d)). split; [eapply after_terminal; eauto|]. destruct (row _ _ _ V Hcore) as [(R1 & R2)|(t & R1 & R2)]; [left|right; exists t]; (split; [exact R1|]).
      + intros c Hc. eapply move_one; eauto. apply R1, Hc.
      + intros c Hc. eapply move_one; eauto.
    - destruct (core_sym _ _ _ _ V Hcore Hx) as [(q & e & ->)|Ht]; [|destruct (Ht B eq_refl)]. cbn [valid core] in *.
      assert (J : (exists s m, B = E s m /\ forall c, exists c', kern q e s m c c') \/ (exists n, B = ls_name M n /\ klist q e n) \/
        (exists n, B = E (ls_sort M n) 0 /\ klist q e n) \/ exists s m j, B = E s j /\ (forall c, exists c', kin q e s m c c') /\ m < j <= top s).
      { destruct Hcore as [[-> ->]|[(-> & s & m & i & HK & Hi & Hl)|(-> & n & HL & Hn)]].
        - destruct (tval_name _ _ _ V Hx) as [(s & m & -> & HK)|(n & -> & HL)]; [left; eauto|right; left; eauto].
        - destruct (first_E _ _ _ _ Hl Hx) as (j & -> & Ho). assert (Hmj : j = m \/ m < j) by (destruct (first_level _ _ _ _ Hl Ho Hx); lia).
          destruct Hmj as [-> |Hmj]; [|right; right; right; exists s, m, j; split; auto; split; auto; split; [auto|apply Ho]].
          destruct (HK eofc) as [c0 [K|(n & HL & -> & -> & _)]]; [left; exists s, m; split; auto; eapply kern_all; eauto|right; right; left; eauto].
        - destruct (lst_first _ _ _ Hn Hx) as [[-> _]|[-> _]]; [right; left; eauto|right; right; left; eauto]. }
      destruct J as [(s & m & -> & HK)|[(n & -> & HL)|[(n & -> & HL)|(s & m & j & -> & HK & Hj)]]].
      + exists (ShB q e). split; [left; exists s, m; exact HK|]. left. split; [intros c; reflexivity|]. intros c Hc. destruct (HK c) as [c' HK']. eapply move_B; eauto.
      + exists (ShB q e). split; [right; exists n; exact HL|]. left. split; [intros c; reflexivity|]. intros c Hc. apply move_BL; auto.
      + exists (ShE n). split; [apply (klist_at _ _ _ HL)|]. right. exists (lcx n). split; [intros c Hc; split; [eapply klist_used; eauto|reflexivity]|]. intros c Hc. apply (move_E q e); auto.
      + destruct (HK eofc) as [c0 HK0]. pose proof (kin_m _ _ _ _ _ _ HK0) as Hok. exists (ShP s j). split; [split; [apply Hok|lia]|]. destruct (kin_kind _ _ _ _ _ _ HK0) as [(t & H1 & H2)|(i0 & Hl0 & H2)].
        * right. exists t. split; [exact H1|]. intros c Hc. apply move_P with (m := m); auto.
        * left. cbn [cx]. split; [intros c; apply (cq_lev _ _ _ _ Hl0)|]. intros c Hc. apply move_P with (m := m); auto.
  Qed.

  Definition shaped (I : lrset) : Prop := exists z c, valid z /\ cx z c /\ set_eq I (sset z c).
  Lemma init_shape : set_eq (clo g F init_set) (sset (ShT 0 0) eofc).
  Proof using W HR HR' OK Hfresh Hfresh'.
    eapply eqs_trans; [|apply clo_one; [left; auto|apply cq_zero; auto]].
    apply clo_eq. intros p d k. unfold init_set, one. split.
    - intros (-> & -> & ->). exists SEof. split; [apply tok0|]. repeat split. apply lk_zero. apply inn_one. reflexivity.
    - intros (y & Hy & -> & -> & H). apply lk_zero in H. apply inn_one in H. subst y. repeat split. eapply tok_unique; [exact Hy|apply tok0].
  Qed.
  Theorem states_shaped I : lr_state g F I -> shaped I.
  Proof using W HR HR' HU OK Hfresh Hfresh'.
    induction 1 as [|I x HI IH Hne]; [exists (ShT 0 0), eofc; split; [left; auto|split; [apply cq_zero; auto|apply init_shape]]|]. destruct IH as (z & c & V & Hc & H).
    assert (Em : set_eq (clo g F (move g I x)) (clo g F (move g (sset z c) x))) by (apply clo_eq; intros p d k; apply move_ext, H).
    destruct Hne as (p & d' & k & d & -> & Hk & Hx). apply H in Hk.
    destruct (goto_shape z x p d V (sset_core _ _ _ _ _ V Hc Hk) Hx) as (z' & V' & [(H1 & H2)|(t & H1 & H2)]).
    - exists z', c. split; auto. split; [apply H1, Hc|]. eapply eqs_trans; eauto.
    - exists z', t. split; auto. split; [eauto|]. eapply eqs_trans; eauto.
  Qed.

  (** ** Cores *)

  (** A state after a name has only items with a name before the dot. *)
  Lemma core_before z p d : valid z -> (forall q e, z <> ShT q e) -> core z p d -> exists d' B, d = S d' /\ sym_at g p d' (SNon B).
  Proof using W OK.
    intros V Hz Hc. destruct z as [q e|q e|s i|n]; [destruct (Hz q e eq_refl)|..]; cbn [core] in *.
    - destruct Hc as [[-> ->]|[(-> & s & m & HK & Hl & Hs)|(-> & n & HL & Hn)]]; [|eauto|exists 0; eexists; split; auto; apply (lmore_sym _ _ Hn)]. destruct (valid_B _ _ V) as (_ & B & HB). eauto.
    - destruct Hc as (-> & j & _ & Hl & Hs). eauto.
    - destruct Hc as (-> & [(_ & _ & H)|(Hl & Hs)]); [|eauto]. exists 0. eexists. split; auto. rewrite (rul_at _ _ _ _ _ _ H). reflexivity.
  Qed.
  Lemma core_T q e z : valid (ShT q e) -> valid z -> (forall p d, core (ShT q e) p d <-> core z p d) -> ShT q e = z.
  Proof using W OK.
    intros V V' H. assert (Hc : core z q e) by (apply H; left; auto). cbn [valid] in V.
    assert (D : (exists q' e', z = ShT q' e') \/ forall q' e', z <> ShT q' e') by (destruct z; [left; eauto|right; discriminate..]).
    destruct D as [(q' & e' & ->)|Hz].
    - cbn [core] in Hc. destruct Hc as [[-> ->]|[(-> & s & m & i & _ & _ & Hl)|(-> & n & _ & Hn)]]; auto; exfalso; (destruct (tval_hot _ _ V) as [[-> _]|(_ & d & x & E0 & _)]; [|discriminate]).
      + destruct Hl as [Hl _]; congruence.
      + apply (lst_0 _ _ Hn). reflexivity.
    - exfalso. destruct (core_before z q e V' Hz Hc) as (d' & B & -> & HB). destruct (tval_hot _ _ V) as [[_ E0]|(_ & d & x & E0 & Hx & Ht)]; [discriminate|].
      injection E0 as <-. apply (Ht B). eapply at_fun; eauto.
  Qed.
  Lemma core_B q e z : valid (ShB q e) -> valid z -> (forall q e, z <> ShT q e) -> (forall p d, core (ShB q e) p d <-> core z p d) -> ShB q e = z.
  Proof using W OK.
    intros V V' Hz H. assert (Hc : core z q (S e)) by (apply H; left; auto).
    assert (N0 : e = 0 -> q = 0) by (intros ->; destruct (tval_hot _ _ (proj1 (valid_B _ _ V))) as [[-> _]|(_ & d & x & E0 & _)]; [auto|discriminate]).
    assert (N : forall s i, e = 0 -> ~ lev q s i) by (intros s i He (H0 & _); auto).
    assert (N' : forall n, e = 0 -> ~ lst q n) by (intros n He Hn; apply (lst_0 _ _ Hn); auto).
    destruct z as [q' e'|q' e'|s i|n]; [destruct (Hz q' e' eq_refl)|..]; cbn [core] in Hc.
    - destruct Hc as [[-> E0]|[(E0 & s & m & _ & Hl & _)|(E0 & n & _ & Hn)]]; [injection E0 as <-; reflexivity|..]; exfalso; injection E0 as E0; [eapply N; eauto|eapply N'; eauto; right; eauto].
    - exfalso. destruct Hc as (E0 & j & _ & Hl & _). injection E0 as E0. eapply N; eauto.
    - exfalso. destruct Hc as (E0 & [Hn|(Hl & _)]); injection E0 as E0; [eapply N'; eauto; left; eauto|eapply N; eauto].
  Qed.
  Lemma core_E n z : valid (ShE n) -> (forall q e, z <> ShT q e) -> (forall q e, z <> ShB q e) -> (forall p d, core (ShE n) p d <-> core z p d) -> ShE n = z.
  Proof using W HR' OK.
    intros V Hz Hz' H. destruct (lone_get n V) as (p & Hp). assert (Hc : core z p 1) by (apply H; split; auto).
    destruct z as [q' e'|q' e'|s i|n']; [destruct (Hz q' e' eq_refl)|destruct (Hz' q' e' eq_refl)|..]; cbn [core] in Hc.
    - destruct Hc as (_ & j & _ & Hl & _). destruct (lst_lev _ _ _ _ (or_introl Hp) Hl).
    - destruct Hc as (_ & [Hn|(Hl & _)]); [|destruct (lst_lev _ _ _ _ (or_introl Hp) Hl)]. f_equal. eapply lst_fun; left; eauto.
  Qed.
  Lemma core_inj z z' : valid z -> valid z' -> (forall p d, core z p d <-> core z' p d) -> z = z'.
  Proof using W HR' OK.
    intros V V' H. assert (H' : forall p d, core z' p d <-> core z p d) by (intros; symmetry; apply H).
    destruct z as [q e|q e|s i|n]; [apply core_T; auto|..].
    - destruct z' as [q' e'|q' e'|s' i'|n']; [symmetry; apply core_T; auto|apply core_B; auto; discriminate..].
    - destruct z' as [q' e'|q' e'|s' i'|n']; [symmetry; apply core_T; auto|symmetry; apply core_B; auto; discriminate| |symmetry; apply core_E; auto; discriminate].
      cbn [valid] in V, V'. destruct (rul_get _ _ (lr_pass M s (i - 1) (proj1 V) ltac:(lia))) as (p & H0 & Hp). replace (S (i - 1)) with i in Hp by lia.
      assert (Hs : sym_at g p 0 (SNon (E s i))) by (rewrite (rul_at _ _ _ _ _ _ Hp); reflexivity).
      assert (Hc : core (ShP s i) p 1). { cbn [core]. split; auto. exists (i - 1). split; [lia|]. split; auto. split; auto. split; [split; [apply V|lia]|eauto]. }
      apply H in Hc. cbn [core] in Hc. destruct Hc as (_ & j & _ & _ & Hs'). pose proof (nt_fun _ _ _ _ _ Hs Hs') as En.
      apply E_inj in En as [-> ->]; auto; split; try apply V; try apply V'; lia.
    - destruct z' as [q' e'|q' e'|s' i'|n']; [symmetry; apply core_T; auto|symmetry; apply core_B; auto; discriminate|apply core_E; auto; discriminate..].
  Qed.
  Lemma shaped_core I J z c : set_eq I (sset z c) -> valid z -> cx z c -> shaped J -> same_core I J -> exists c', cx z c' /\ set_eq J (sset z c').
  Proof using W HR' OK.
    intros HI V Hc (z' & c' & V' & Hc' & HJ) Hsc. assert (z = z') as ->; [|eauto]. apply core_inj; auto. intros p d.
    rewrite <- (core_ok z c p d V Hc), <- (core_ok z' c' p d V' Hc'). specialize (Hsc p d).
    split; intros [k Hk].
    - destruct (proj1 Hsc) as [k' Hk']; [exists k; apply HI, Hk|]. exists k'. apply HJ, Hk'.
    - destruct (proj2 Hsc) as [k' Hk']; [exists k; apply HJ, Hk|]. exists k'. apply HI, Hk'.
  Qed.

  (** ** All shapes are states *)

  Definition reached (z : sh) (c : cxt) : Prop := exists I, lr_state g F I /\ set_eq I (sset z c).
  Lemma reached_move z c x z' c' : reached z c -> (exists p d, core z p d /\ sym_at g p d x) -> valid z -> cx z c -> set_eq (clo g F (move g (sset z c) x)) (sset z' c') -> reached z' c'.
  Proof using W HR' OK.
    intros (I & HI & H) (p & d & Hcore & Hx) V Hc Hm. exists (clo g F (move g I x)). apply (core_ok z c p d V Hc) in Hcore as [k Hk]. split.
    - apply lr_goto; auto. exists p, (S d), k, d. split; auto. split; auto. apply H, Hk.
    - eapply eqs_trans; [|exact Hm]. apply clo_eq. intros p' d' k'. apply move_ext, H.
  Qed.
  Definition base (s : nat) (c : cxt) : Prop := exists q e c0, cq q c0 /\ kin q e s 0 c0 c /\ reached (ShT q e) c0.
  Lemma level_some s i : ok s i -> exists p, lev p s i.
  Proof using HR' OK.
    intros [Hs Hi]. assert (D : i < top s \/ i = top s) by lia. destruct D as [D| ->].
    - destruct (rul_get _ _ (lr_pass M s i Hs D)) as (p & H0 & H). exists p. split; auto. split; [split; auto|eauto].
    - pose proof (mk_some _ OK s Hs) as Hn. destruct (lg_forms M s (top s)) as [|f l] eqn:Ef; [congruence|].
      assert (Hf : is_form M s (top s) f) by (split; [auto|split; [lia|rewrite Ef; left; auto]]). destruct (form_get _ _ _ Hf) as (p & H0 & H). exists p. eapply form_lev; eauto.
  Qed.
  Lemma base_P s c j : base s c -> 1 <= j <= top s -> reached (ShP s j) c.
  Proof using W HR HR' OK.
    intros (q & e & c0 & Hq & HK & HI) Hj. apply (reached_move (ShT q e) c0 (SNon (E s j))); auto.
    - destruct (kin_m _ _ _ _ _ _ HK) as [Hs _]. destruct (rul_get _ _ (lr_pass M s (j - 1) Hs ltac:(lia))) as (p & H0 & H). replace (S (j - 1)) with j in H by lia.
      exists p, 0. split; [|rewrite (rul_at _ _ _ _ _ _ H); reflexivity]. cbn [core]. right. left. split; auto. exists s, 0, (j - 1). split; [eapply kin_all; eauto|]. split; [lia|].
      split; auto. split; [split; [auto|lia]|eauto].
    - exact (kin_tval _ _ _ _ _ _ HK).
    - eapply move_P; eauto; lia.
  Qed.
  Lemma reached_B q e c s m c' : reached (ShT q e) c -> cq q c -> kern q e s m c c' -> reached (ShB q e) c.
  Proof using W HR HR' OK.
    intros HI Hq HK. apply (reached_move (ShT q e) c (SNon (E s m))); auto; [|exact (kern_tval _ _ _ _ _ _ HK)|eapply move_B; eauto]. exists q, e. split; [left; auto|]. eapply kern_m; eauto.
  Qed.
  Lemma reached_BL q e c n : reached (ShT q e) c -> cq q c -> klist q e n -> reached (ShB q e) c.
  Proof using W HR HR' OK.
    intros HI Hq HL. apply (reached_move (ShT q e) c (SNon (ls_name M n))); auto; [|exact (klist_tval _ _ _ HL)|eapply move_BL; eauto]. exists q, e. split; [left; auto|]. eapply klist_at; eauto.
  Qed.
  Lemma reached_E q e c n : reached (ShT q e) c -> cq q c -> klist q e n -> reached (ShE n) (lcx n).
  Proof using W HR HR' OK.
    intros HI Hq HL. apply (reached_move (ShT q e) c (SNon (E (ls_sort M n) 0))); auto; [|exact (klist_tval _ _ _ HL)|eapply move_E; eauto].
    destruct (lone_get n (proj1 (klist_at _ _ _ HL))) as (p & Hp). exists p, 0. split; [|destruct Hp as (_ & _ & Hp); rewrite (rul_at _ _ _ _ _ _ Hp); reflexivity].
    right. right. split; auto. exists n. split; auto. left. auto.
  Qed.
  Lemma step_T z c q d x c1 : valid z -> cx z c -> reached z c -> core z q d -> sym_at g q d x -> terminal x -> (forall k, sset z c q d k <-> exists y, tok g k y /\ lk q c1 y) -> cq q c1 -> reached (ShT q (S d)) c1.
  Proof using W HR HR' HU OK Hfresh Hfresh'. intros V Hc HI Hcore Hx Ht Hrow Hq. apply (reached_move z c x); auto; [eauto|]. apply move_one; auto. Qed.
  Lemma base_first s c i f q : base s c -> ctx s c -> is_form M s i f -> q <> 0 -> rul q (E s i) (body s i f) -> reached (ShT q (length (lsl s i f ++ [Tok (fm_first f)]))) c.
  Proof using W HR HR' HU OK Hfresh Hfresh'.
    intros HB Hc Hf H0 H. pose proof HB as (q0 & e0 & c0 & Hq & HK & HI). pose proof (form_lev _ _ _ _ H0 Hf H) as Hl. pose proof (first_term _ _ _ Hf) as Ht.
    assert (Hqc : cq q c) by (apply (cq_lev _ _ _ _ Hl), Hc). pose proof (kin_tval _ _ _ _ _ _ HK) as V0. pose proof (kin_all _ _ _ _ _ _ HK) as HA.
    unfold lsl. destruct (fm_l f) eqn:Hfl; cbn [app length].
    - assert (H1 : sym_at g q 1 (fm_first f)) by (rewrite (rul_at _ _ _ _ _ _ H); unfold body, form_slots; rewrite Hfl; reflexivity).
      assert (H2 : sym_at g q 0 (SNon (E s (lo M s i)))) by (rewrite (rul_at _ _ _ _ _ _ H); unfold body, form_slots; rewrite Hfl; reflexivity).
      pose proof (lo_ok _ _ _ Hf Hfl) as Ho. assert (D : lo M s i = 0 \/ 1 <= lo M s i) by lia. destruct D as [D|D].
      + assert (Ei : i = 0) by (unfold lo in D; destruct (lg_left M s i); lia). subst i. rewrite D in H2. destruct HK as [HK|(n & HL & -> & _ & ->)].
        * assert (V : valid (ShB q0 e0)) by (left; exists s, 0; eapply kern_all; eauto).
          apply (step_T (ShB q0 e0) c0 q 1 (fm_first f) c); auto; [eapply reached_B; eauto| |eapply inner_row_B; eauto].
          cbn [core]. right. left. split; auto. exists s, 0. split; [eapply kern_all; eauto|auto].
        * assert (V : valid (ShE n)) by exact (proj1 (klist_at _ _ _ HL)).
          apply (step_T (ShE n) (lcx n) q 1 (fm_first f) (lcx n)); auto; [split; [eapply klist_used; eauto|auto]|eapply reached_E; eauto|cbn [core]; auto|apply row_E2; auto].
      + assert (Hj : 1 <= lo M s i <= top s) by (destruct Ho; lia). pose proof (base_P _ _ _ HB Hj) as HP.
        assert (Di : i = lo M s i \/ S i = lo M s i) by (unfold lo; destruct (lg_left M s i); auto).
        apply (step_T (ShP s (lo M s i)) c q 1 (fm_first f) c); auto.
        * split; auto. apply Ho.
        * cbn [core]. split; auto. exists i. auto.
        * eapply row_P; eauto.
    - assert (H1 : sym_at g q 0 (fm_first f)) by (rewrite (rul_at _ _ _ _ _ _ H); unfold body, form_slots; rewrite Hfl; reflexivity).
      apply (step_T (ShT q0 e0) c0 q 0 (fm_first f) c); auto.
      + cbn [core]. right. left. split; auto. exists s, 0, i. split; auto. split; [lia|auto].
      + apply (inner_row q0 e0 c0 s 0 c q i); auto. lia.
  Qed.
  Lemma base_T s c q e i f pre more : base s c -> ctx s c -> tpos q e s i f pre more -> reached (ShT q e) c.
  Proof using W HR HR' HU OK Hfresh Hfresh'.
    intros HB Hc. revert e more. induction pre as [|x pre IH] using rev_ind; intros e more T; pose proof T as (H0 & Hf & H & Em & El).
    - rewrite El. cbn [flat_map]. apply base_first; auto.
    - pose proof (tpos_lev _ _ _ _ _ _ _ T) as Hl. assert (Hqc : cq q c) by (apply (cq_lev _ _ _ _ Hl), Hc).
      rewrite <- app_assoc in Em. cbn [app] in Em.
      assert (T0 : tpos q (length (lsl s i f ++ Tok (fm_first f) :: psl pre)) s i f pre (x :: more)) by (split; [auto|split; [auto|split; [auto|split; auto]]]).
      set (e0 := length (lsl s i f ++ Tok (fm_first f) :: psl pre)) in *. specialize (IH _ _ T0).
      assert (V0 : tval q e0) by (right; left; exists s, i, f, pre, (x :: more); auto).
      pose proof (tpos_rest _ _ _ _ _ _ _ T0) as Er. assert (Hi : In x (fm_more f)) by (rewrite Em; apply in_or_app; right; left; reflexivity).
      assert (Ee : e = e0 + length (piece_slots M x)).
      { rewrite El. unfold e0. rewrite flat_map_app. cbn [flat_map]. rewrite app_nil_r, !app_length. cbn [length]. rewrite app_length. lia. }
      destruct x as [t|s' t|n]; cbn [piece_slots length] in Ee.
      + rewrite Ee, Nat.add_1_r. apply rest_at in Er as [Hx _]. apply (step_T (ShT q e0) c q e0 t c); auto; [left; auto|eapply tok_slot; eauto|apply kept_row].
      + pose proof (k_arg _ _ _ _ _ _ _ _ _ c T0) as HK. pose proof (kern_all _ _ _ _ _ _ HK) as HA.
        assert (V : valid (ShB q e0)) by (left; exists s', 0; exact HA).
        apply rest_at in Er as [_ Er]. apply rest_at in Er as [Hx _]. replace e with (S (S e0)) by lia.
        apply (step_T (ShB q e0) c q (S e0) t c); auto; [eapply reached_B; eauto|left; auto|eapply arg_slot; eauto|apply kept_row_B].
      + assert (HL : klist q e0 n) by (exists s, i, f, pre, more; exact T0). assert (V : valid (ShB q e0)) by (right; exists n; exact HL).
        destruct (klist_at _ _ _ HL) as (Hn & _ & Hx & _). replace e with (S (S e0)) by lia.
        apply (step_T (ShB q e0) c q (S e0) (ls_end M n) c); auto; [eapply reached_BL; eauto|left; auto|apply (mk_list _ OK n Hn)|apply kept_row_B].
  Qed.
  Lemma tpos_at s i f pre x more : is_form M s i f -> fm_more f = pre ++ x :: more -> exists q e, tpos q e s i f pre (x :: more).
  Proof using HR'.
    intros Hf Em. destruct (form_get _ _ _ Hf) as (q & H0 & H). exists q, (length (lsl s i f ++ Tok (fm_first f) :: psl pre)). split; [auto|split; [auto|split; [auto|split; auto]]].
  Qed.
  Lemma base_all s c : ctx s c -> base s c.
  Proof using W HR HR' HU OK Hfresh Hfresh'.
    induction 1 as [|s c i f s' t Hc IH Hf Hi|s c i f n Hc IH Hf Hi|s c i f s' Hc IH Hf Hi].
    - exists 0, 0, eofc. split; [apply cq_zero; auto|]. split; [left; apply k_start|]. exists (clo g F init_set). split; [apply lr_init|apply init_shape].
    - apply in_split in Hi as (pre & more & Em). destruct (tpos_at _ _ _ _ _ _ Hf Em) as (q & e & T).
      exists q, e, c. split; [apply (cq_lev _ _ _ _ (tpos_lev _ _ _ _ _ _ _ T)), Hc|]. split; [left; eapply k_arg; eauto|eapply base_T; eauto].
    - apply in_split in Hi as (pre & more & Em). destruct (tpos_at _ _ _ _ _ _ Hf Em) as (q & e & T).
      exists q, e, c. split; [apply (cq_lev _ _ _ _ (tpos_lev _ _ _ _ _ _ _ T)), Hc|]. split; [right; exists n; split; auto; exists s, i, f, pre, more; auto|eapply base_T; eauto].
    - destruct (form_get _ _ _ Hf) as (q & H0 & H). assert (T : tpos q (length (lsl s i f ++ Tok (fm_first f) :: psl (fm_more f))) s i f (fm_more f) []) by (split; [auto|split; [auto|split; [auto|split; [rewrite app_nil_r|]; auto]]]).
      exists q, (length (lsl s i f ++ Tok (fm_first f) :: psl (fm_more f))), c. split; [apply (cq_lev _ _ _ _ (tpos_lev _ _ _ _ _ _ _ T)), Hc|]. split; [left; eapply k_end; eauto|eapply base_T; eauto].
  Qed.
  Lemma used_at n : used n -> exists q e c, cq q c /\ klist q e n /\ reached (ShT q e) c.
  Proof using W HR HR' HU OK Hfresh Hfresh'.
    intros (s & c & i & f & Hc & Hf & Hi). apply in_split in Hi as (pre & more & Em). destruct (tpos_at _ _ _ _ _ _ Hf Em) as (q & e & T).
    exists q, e, c. split; [apply (cq_lev _ _ _ _ (tpos_lev _ _ _ _ _ _ _ T)), Hc|]. split; [exists s, i, f, pre, more; exact T|]. eapply base_T; eauto. apply base_all, Hc.
  Qed.
  Theorem all_reached z c : valid z -> cx z c -> reached z c.
  Proof using W HR HR' HU OK Hfresh Hfresh'.
    assert (HT : forall q e c, tval q e -> cq q c -> reached (ShT q e) c).
    { intros q e c0 [[-> ->]|[(s & i & f & pre & more & T)|(-> & n & Hn)]] Hc0.
      - apply cq_zero in Hc0. subst c0. exists (clo g F init_set). split; [apply lr_init|apply init_shape].
      - rewrite (cq_lev _ _ _ _ (tpos_lev _ _ _ _ _ _ _ T)) in Hc0. eapply base_T; eauto. apply base_all, Hc0.
      - pose proof Hc0 as Hcq. rewrite (cq_lst q n c0 (or_intror Hn)) in Hc0. destruct Hc0 as [Hu ->]. destruct (used_at n Hu) as (q0 & e0 & c1 & Hq & HL & HI).
        apply (step_T (ShB q0 e0) c1 q 1 (ls_sep M n) (lcx n)); auto; [right; exists n; auto|eapply reached_BL; eauto| |apply (lmore_sym _ _ Hn)|apply (mk_list _ OK n), (lmore_n _ _ Hn)|apply list_row_B; auto].
        right. right. split; auto. exists n. auto. }
    intros V Hc. destruct z as [q e|q e|s i|n]; cbn [valid cx] in *; [apply HT; auto| |apply base_P; [apply base_all, Hc|apply V]|].
    - destruct V as [(s & m & HK)|(n & HL)].
      + destruct (HK c) as [c' K]. eapply reached_B; eauto. apply HT; auto. eapply kern_tval; eauto.
      + eapply reached_BL; eauto. apply HT; auto. eapply klist_tval; eauto.
    - destruct Hc as [Hu ->]. destruct (used_at n Hu) as (q0 & e0 & c1 & Hq & HL & HI). eapply reached_E; eauto.
  Qed.

  (** ** No transition is missing *)

  Lemma lalr_shape I z c : lr_state g F I -> set_eq I (sset z c) -> valid z -> cx z c -> forall p d k, lalr_of g F I p d k <-> exists c', cx z c' /\ sset z c' p d k.
  Proof using W HR HR' HU OK Hfresh Hfresh'.
    intros HI EI V Hc p d k. split.
    - intros (I' & HI' & Hsc & H). destruct (shaped_core _ _ _ _ EI V Hc (states_shaped _ HI') Hsc) as (c' & Hc' & EI'). exists c'. split; auto. apply EI', H.
    - intros (c' & Hc' & H). destruct (all_reached z c' V Hc') as (I' & HI' & EI'). exists I'. split; auto. split; [|apply EI', H].
      intros p' d'. transitivity (core z p' d'); [rewrite <- (core_ok z c p' d' V Hc)|rewrite <- (core_ok z c' p' d' V Hc')]; (split; intros [k0 H0]; exists k0; [try apply EI; try apply EI'; auto..]).
  Qed.
  Lemma clo_union (Q : cxt -> Prop) (K : cxt -> lrset) p d k : clo g F (fun p d k => exists c, Q c /\ K c p d k) p d k <-> exists c, Q c /\ clo g F (K c) p d k.
  Proof.
    split.
    - induction 1 as [p d k (c & Hc & H)|p d k a q pq b k' _ (c & Hc & IH)]; exists c; (split; [auto|]); [apply clo_base; auto|eapply clo_rule; eauto].
    - intros (c & Hc & H). induction H; [apply clo_base; eauto|eapply clo_rule; eauto].
  Qed.
  Theorem states_found I x : lr_state g F I -> (exists p d k, I p d k /\ sym_at g p d x) -> found g F (lalr_of g F I) x.
  Proof using W HR HR' HU OK Hfresh Hfresh'.
    intros HI (p & d & k & Hk & Hx). destruct (states_shaped _ HI) as (z & c & V & Hc & EI). pose proof (lalr_shape _ _ _ HI EI V Hc) as EL.
    apply EI in Hk. pose proof (sset_core _ _ _ _ _ V Hc Hk) as Hcore.
    assert (EM : set_eq (clo g F (move g (lalr_of g F I) x)) (fun p d k => exists c, cx z c /\ clo g F (move g (sset z c) x) p d k)).
    { intros p' d' k'. rewrite <- clo_union. apply clo_eq. clear -EL. intros p d k. unfold move. split.
      - intros (d1 & -> & H & Hx). apply EL in H as (c & Hc & H). exists c. split; auto. exists d1. auto.
      - intros (c & Hc & d1 & -> & H & Hx). exists d1. split; auto. split; auto. apply EL. eauto. }
    destruct (goto_shape z x p d V Hcore Hx) as (z' & V' & [(H1 & H2)|(t & H1 & H2)]).
    - destruct (all_reached z' c V' (proj1 (H1 c) Hc)) as (I' & HI' & EI'). exists I'. split; auto. right.
      intros p' d' k'. rewrite (EM p' d' k'), (lalr_shape _ _ _ HI' EI' V' (proj1 (H1 c) Hc) p' d' k'). split.
      + intros (c1 & Hc1 & H). exists c1. split; [apply H1, Hc1|apply (H2 c1 Hc1), H].
      + intros (c1 & Hc1 & H). apply H1 in Hc1. exists c1. split; auto. apply (H2 c1 Hc1), H.
    - destruct (all_reached z' t V' (H1 c Hc)) as (I' & HI' & EI'). exists I'. split; auto. left.
      intros p' d' k'. rewrite (EM p' d' k'), (EI' p' d' k'). split.
      + intros (c1 & Hc1 & H). apply (H2 c1 Hc1), H.
      + intros H. exists c. split; auto. apply (H2 c Hc), H.
  Qed.

  (** ** No conflicts *)

  Lemma not_complete_0 p : ~ complete g p 0.
  Proof using Hplain.
    intros (pr & Hp & E0). destruct Hplain as [He _]. destruct (He pr (nth_error_In _ _ Hp)) as [He' _]. destruct (p_syms pr); [congruence|discriminate].
  Qed.
  Lemma pass_complete p s i B : lev p s i -> sym_at g p 0 (SNon B) -> complete g p 1 -> i < top s /\ B = E s (S i) /\ rul p (E s i) [SNon (E s (S i))].
  Proof using HR OK.
    intros Hl Hs Hk. destruct (first_name _ _ _ _ Hl Hs) as [(f & Hf & Hfl & En & Ho & H)|H]; auto. exfalso. destruct (rest_first _ _ _ _ Hfl H) as [u Eu].
    eapply complete_no; [exact Hk|]. eapply rest_at; eauto.
  Qed.
  Lemma same_complete p s i : lev p s i -> sym_at g p 0 (SNon (E s i)) -> ~ complete g p 1.
  Proof using HR OK.
    intros Hl Hs Hk. destruct (pass_complete _ _ _ _ Hl Hs Hk) as (Hi & En & _). destruct Hl as (_ & [Hso Hm] & _). apply E_inj in En as [_ En]; [lia|split; auto..].
  Qed.
  Lemma lmore_open p n : lmore p n -> ~ complete g p 1.
  Proof. intros Hn Hk. eapply complete_no; [exact Hk|]. apply (lmore_sym _ _ Hn). Qed.
  Lemma complete_B q e p d : core (ShB q e) p d -> complete g p d -> p = q /\ d = S e.
  Proof using HR OK.
    intros [H|[(-> & s & m & HK & Hl & Hs)|(-> & n & _ & Hn)]] Hk; auto; exfalso; [eapply same_complete; eauto|eapply lmore_open; eauto].
  Qed.
  Lemma complete_E n p d : core (ShE n) p d -> complete g p d -> lone p n /\ d = 1.
  Proof using HR OK. intros (-> & [H|(Hl & Hs)]) Hk; auto. exfalso. eapply same_complete; eauto. Qed.
  Lemma one_complete z p d p' d' : valid z -> core z p d -> core z p' d' -> complete g p d -> complete g p' d' -> p = p' /\ d = d'.
  Proof using W Hplain HR HU OK.
    intros V Hc Hc' Hk Hk'. destruct z as [q e|q e|s i|n].
    - assert (G : forall p d, core (ShT q e) p d -> complete g p d -> p = q /\ d = e).
      { intros p0 d0 [H|[(-> & _)|(-> & _)]] Hk0; auto; exfalso; eapply not_complete_0; eauto. }
      destruct (G _ _ Hc Hk) as [-> ->], (G _ _ Hc' Hk') as [-> ->]. auto.
    - destruct (complete_B _ _ _ _ Hc Hk) as [-> ->], (complete_B _ _ _ _ Hc' Hk') as [-> ->]. auto.
    - destruct Hc as (-> & j & Hj & Hl & Hs), Hc' as (-> & j' & Hj' & Hl' & Hs').
      destruct (pass_complete _ _ _ _ Hl Hs Hk) as (Hi & En & H), (pass_complete _ _ _ _ Hl' Hs' Hk') as (Hi' & En' & H'). split; auto.
      assert (Hso : s < lg_sorts M) by apply V. apply E_inj in En as [_ En]; [|split; auto; lia..]. apply E_inj in En' as [_ En']; [|split; auto; lia..].
      assert (j = j') as <- by lia. eapply rul_one; eauto; [apply Hl|apply Hl'].
    - destruct (complete_E _ _ _ Hc Hk) as [H ->], (complete_E _ _ _ Hc' Hk') as [H' ->]. split; auto. eapply lone_one; eauto.
  Qed.
  Lemma no_shift z c p d k p' d' x : valid z -> cx z c -> complete g p d -> sset z c p d k -> core z p' d' -> sym_at g p' d' x -> terminal x -> tok g k x -> False.
  Proof using W Hplain HR HR' HU OK.
    intros V Hc Hk HI Hc' Hx Ht Htk. pose proof (sset_core _ _ _ _ _ V Hc HI) as Hcore.
    destruct z as [q e|q e|s i|n]; cbn [sset cx] in *.
    - destruct Hcore as [[-> ->]|[(-> & _)|(-> & _)]]; [|eapply not_complete_0; eauto..]. destruct Hc' as [[-> ->]|[(-> & s & m & i & HK & _)|(-> & n & HL & _)]]; [eapply complete_no; eauto|..].
      + destruct (HK eofc) as [c' K]. destruct (kin_at _ _ _ _ _ _ K) as [B HB]. eapply complete_no; eauto.
      + destruct (klist_at _ _ _ HL) as (_ & HB & _). eapply complete_no; eauto.
    - destruct (complete_B _ _ _ _ Hcore Hk) as [-> ->]. destruct Hc' as [[-> ->]|[(-> & s & m & HK & Hl & Hs)|(-> & n & HL & _)]]; [eapply complete_no; eauto| |].
      2:{ destruct (klist_at _ _ _ HL) as (_ & _ & HB & _). eapply complete_no; eauto. }
      destruct (name_next _ _ _ _ _ Hl Hs Hx) as (f & Hf & Hfl & -> & En & H). pose proof (lo_ok _ _ _ Hf Hfl) as Hlo.
      pose proof (proj1 (proj2 Hl)) as Hok. apply E_inj in En as [_ En]; auto.
      apply kept_row_B in HI as (y & Hy & Hlk). rewrite <- (tok_fun _ _ _ _ Htk Hy) in Hlk. clear y Hy.
      destruct (HK c) as [c' K]. destruct (kern_rest _ _ _ _ _ _ K) as (_ & [(-> & -> & -> & -> & ->)|[(s0 & i & f0 & pre & more & t & T & -> & -> & Er)|[(i & f0 & pre & T & Hr & Em & -> & Er)|(N & -> & -> & Er)]]]).
      + apply lk_zero in Hlk. apply cq_zero in Hc. subst c. eapply first_ctx; eauto. apply cx_eof.
      + eapply complete_no; [exact Hk|]. eapply rest_at. eapply rest_at. exact Er.
      + pose proof (tpos_lev _ _ _ _ _ _ _ T) as Hv. rewrite (lk_lev _ _ _ _ _ Hv) in Hlk. rewrite (cq_lev _ _ _ _ Hv) in Hc.
        pose proof (look_first _ _ _ _ _ Hc Hf Hfl Hlk) as Hle. rewrite <- En in Hle. clear -Em Hle En. unfold ro in Em. destruct (lg_left M s i) eqn:E1; [lia|].
        subst m. unfold lo in En. rewrite E1 in En. lia.
      + destruct (closes_ctx _ _ _ N) as (t & _ & H2 & _ & H4). eapply first_ctx; eauto.
    - destruct Hcore as (-> & j & Hj & Hl & Hs). destruct (pass_complete _ _ _ _ Hl Hs Hk) as (Hi & En & H). assert (Hso : s < lg_sorts M) by apply V. cbn [valid] in V.
      apply E_inj in En as [_ En]; [|split; auto; lia..].
      destruct Hc' as (-> & j' & Hj' & Hl' & Hs'). destruct (name_next _ _ _ _ _ Hl' Hs' Hx) as (f & Hf & Hfl & -> & En' & H').
      apply E_inj in En' as [_ En']; [|split; auto; lia|eapply lo_ok; eauto].
      apply (row_P s i c p j Hj Hl Hs) in HI as (y & Hy & Hlk). rewrite <- (tok_fun _ _ _ _ Htk Hy) in Hlk. rewrite (lk_lev _ _ _ _ _ Hl) in Hlk.
      pose proof (look_first _ _ _ _ _ Hc Hf Hfl Hlk). lia.
    - destruct (complete_E _ _ _ Hcore Hk) as [Hn ->]. destruct Hc' as (-> & [Hn'|(Hl & Hs)]); [destruct (lone_1 _ _ _ Hn' Hx)|]. destruct Hc as [Hu ->].
      apply row_E1 in HI as (y & Hy & Hlk); auto. rewrite <- (tok_fun _ _ _ _ Htk Hy) in Hlk. rewrite (lk_lst _ n _ _ (or_introl Hn)) in Hlk.
      destruct (name_next _ _ _ _ _ Hl Hs Hx) as (f & Hf & Hfl & -> & _). eapply first_ctx; eauto. apply used_ctx, Hu.
  Qed.
  Theorem states_settled I : lr_state g F I -> forall p d p' d' k, wants g F (lalr_of g F I) p d k -> wants g F (lalr_of g F I) p' d' k -> (p, d) = (p', d').
  Proof using W Hplain HR HR' HU OK Hfresh Hfresh'.
    intros HI p d p' d' k H H'. destruct (states_shaped _ HI) as (z & c & V & Hc & EI). pose proof (lalr_shape _ _ _ HI EI V Hc) as EL.
    assert (G : forall p d, (exists k, lalr_of g F I p d k) -> core z p d).
    { intros p0 d0 (k0 & H0). apply EL in H0 as (c' & Hc' & H0). eapply sset_core; eauto. }
    assert (R : forall p d p' d', complete g p d -> lalr_of g F I p d k ->
      (exists x, sym_at g p' d' x /\ terminal x /\ tok g k x /\ (exists k', lalr_of g F I p' d' k') /\ found g F (lalr_of g F I) x) -> False).
    { intros p0 d0 p1 d1 Hk H0 (x & Hx & Ht & Htk & H1 & _). apply EL in H0 as (c' & Hc' & H0). eapply (no_shift z c'); eauto. }
    destruct H as [[Hk H]|H], H' as [[Hk' H']|H'].
    - destruct (one_complete z p d p' d' V) as [-> ->]; auto; apply G; eauto.
    - destruct (R _ _ _ _ Hk H H').
    - destruct (R _ _ _ _ Hk' H' H).
    - destruct H as (x & Hx & Ht & Htk & H1 & _), H' as (x' & Hx' & _ & Htk' & H1' & _). rewrite (tok_fun _ _ _ _ Htk' Htk) in Hx'.
      destruct (one_item z p d p' d' x V) as [-> ->]; auto.
  Qed.

  (** ** What else can go wrong *)

  Lemma body_names p pr B : nth_error (g_prods g) p = Some pr -> In (SNon B) (p_syms pr) -> (exists s i, ok s i /\ B = E s i) \/ exists n, n < ls_count M /\ B = ls_name M n.
  Proof using W HR OK.
    intros Hp Hi. destruct (Nat.eq_dec p 0) as [->|H0].
    - rewrite (wg_prod0 _ _ W) in Hp. injection Hp as <-. destruct Hi as [Hi|[]]. left. exists 0, 0. split; [apply ok0|congruence].
    - pose proof (HR _ _ Hp H0) as HL. remember (p_name pr) as A. remember (p_syms pr) as b. destruct HL as [s i Hs Hj|s i f Hf|n Hn|n Hn].
      + destruct Hi as [Hi|[]]. left. exists s, (S i). split; [split; auto|congruence].
      + apply in_map_iff in Hi as (x & Ex & Hx). pose proof (mk_slots _ OK _ _ _ Hf x Hx) as Hok. destruct x as [t|s' i'|n]; cbn [slot_sym] in Ex; [exfalso; eapply Hok; exact Ex|..].
        * left. exists s', i'. split; [exact Hok|congruence].
        * right. exists n. split; [exact Hok|congruence].
      + destruct Hi as [Hi|[]]. left. exists (ls_sort M n), 0. split; [apply list_ok, Hn|congruence].
      + destruct Hi as [Hi|[Hi|[Hi|[]]]]; [right; exists n; split; [auto|congruence]|exfalso; eapply (proj1 (proj2 (mk_list _ OK n Hn))); exact Hi|left; exists (ls_sort M n), 0; split; [apply list_ok, Hn|congruence]].
  Qed.
  (** What follows a name in a rule is a terminal. *)
  Definition is_tok (x : slot) : bool := match x with Tok _ => true | _ => false end.
  Lemma slots_next s i f d y x : nth_error (form_slots M s i f) d = Some y -> is_tok y = false -> nth_error (form_slots M s i f) (S d) = Some x -> exists t, x = Tok t.
  Proof.
    unfold form_slots. intros Hd Hy Hx.
    assert (G : forall more d y x, nth_error (psl more ++ right_slots M s i (fm_r f)) d = Some y -> is_tok y = false ->
      nth_error (psl more ++ right_slots M s i (fm_r f)) (S d) = Some x -> exists t, x = Tok t).
    { clear. induction more as [|[t|s0 t|n] more IH]; intros d y x Hd Hy Hx.
      - destruct (fm_r f), d as [|[|d]]; cbn in *; discriminate.
      - destruct d as [|d]; cbn [flat_map piece_slots app nth_error] in Hd; [injection Hd as <-; discriminate|]. eapply (IH d); [exact Hd|exact Hy|exact Hx].
      - destruct d as [|[|d]]; cbn [flat_map piece_slots app nth_error] in Hd; [|injection Hd as <-; discriminate|]; cbn [flat_map piece_slots app] in Hx.
        + cbn in Hx. injection Hx as <-. eauto.
        + eapply (IH d); [exact Hd|exact Hy|exact Hx].
      - destruct d as [|[|d]]; cbn [flat_map piece_slots app nth_error] in Hd; [|injection Hd as <-; discriminate|]; cbn [flat_map piece_slots app] in Hx.
        + cbn in Hx. injection Hx as <-. eauto.
        + eapply (IH d); [exact Hd|exact Hy|exact Hx]. }
    destruct (fm_l f); cbn [app] in *.
    - destruct d as [|[|d]]; [cbn in Hx; injection Hx as <-; eauto|cbn in Hd; injection Hd as <-; discriminate|]. eapply (G (fm_more f) d); [exact Hd|exact Hy|exact Hx].
    - destruct d as [|d]; [cbn in Hd; injection Hd as <-; discriminate|]. eapply (G (fm_more f) d); [exact Hd|exact Hy|exact Hx].
  Qed.
  Lemma after_name p pr d B x : nth_error (g_prods g) p = Some pr -> nth_error (p_syms pr) d = Some (SNon B) -> nth_error (p_syms pr) (S d) = Some x -> terminal x.
  Proof using W HR OK.
    intros Hp Hd Hx. destruct (Nat.eq_dec p 0) as [->|H0].
    - rewrite (wg_prod0 _ _ W) in Hp. injection Hp as <-. destruct d; discriminate.
    - pose proof (HR _ _ Hp H0) as HL. remember (p_name pr) as A. remember (p_syms pr) as b. destruct HL as [s i Hs Hj|s i f Hf|n Hn|n Hn]; [destruct d; discriminate| |destruct d; discriminate|].
      + rewrite nth_error_map in Hd, Hx. destruct (nth_error (form_slots M s i f) d) as [y|] eqn:Ey; [|discriminate]. destruct (nth_error (form_slots M s i f) (S d)) as [z|] eqn:Ez; [|discriminate].
        cbn [option_map] in Hd, Hx. injection Hd as Hd. injection Hx as <-.
        pose proof (mk_slots _ OK _ _ _ Hf y (nth_error_In _ _ Ey)) as Hy. pose proof (mk_slots _ OK _ _ _ Hf z (nth_error_In _ _ Ez)) as Hz.
        assert (Hn : is_tok y = false) by (destruct y; auto; exfalso; eapply Hy; exact Hd). destruct (slots_next _ _ _ _ _ _ Ey Hn Ez) as [t ->]. exact Hz.
      + pose proof (mk_list _ OK n Hn) as (_ & Ht & _). destruct d as [|[|[|d]]]; cbn in Hd, Hx; try discriminate; [injection Hx as <-; exact Ht|exfalso; eapply Ht; injection Hd as Hd; exact Hd].
  Qed.

  (** ** Trees and expressions *)

  Lemma same_form s i f s' i' f' : is_form M s i f -> is_form M s' i' f' -> E s i = E s' i' -> body s i f = body s' i' f' -> s = s' /\ i = i' /\ f = f'.
  Proof using OK.
    intros Hf Hf' En Eb. destruct (E_inj s i s' i') as [<- <-]; auto; [eapply form_ok; eauto..|]. split; auto. split; auto.
    apply (mk_first _ OK s i i); auto; unfold body, form_slots in Eb; destruct (fm_l f) eqn:E1, (fm_l f') eqn:E2; auto; cbn in Eb; try congruence; exfalso; injection Eb as Eb _;
      [eapply (first_term _ _ _ Hf'); symmetry; exact Eb|eapply (first_term _ _ _ Hf); exact Eb|eapply (first_term _ _ _ Hf'); symmetry; exact Eb|eapply (first_term _ _ _ Hf); exact Eb].
  Qed.
  Lemma proper_low s i i' e : lproper M s i e -> i' <= i -> lproper M s i' e.
  Proof. intros H Hi. destruct H as [s i j f es Hj Hf H]. apply (lp_op M s i' j); auto. lia. Qed.
  Lemma join_last t ws w : ws <> [] -> join t (ws ++ [w]) = join t ws ++ t :: w.
  Proof.
    induction ws as [|w1 [|w2 ws] IH]; intros H; [congruence|reflexivity|]. cbn [app]. change (join t (w1 :: w2 :: ws)) with (w1 ++ t :: join t (w2 :: ws)).
    change (join t (w1 :: w2 :: ws ++ [w])) with (w1 ++ t :: join t ((w2 :: ws) ++ [w])). rewrite IH by discriminate. rewrite <- app_assoc. reflexivity.
  Qed.
  Lemma fills_some h es : fills M h es -> es <> [].
  Proof. intros [s i e H|n e H|n es0 e H1 H2]; try discriminate. destruct es0; discriminate. Qed.
  Lemma fill_list n es e : es <> [] -> join (ls_sep M n) (map (lwritten M) (es ++ [e])) = join (ls_sep M n) (map (lwritten M) es) ++ ls_sep M n :: lwritten M e.
  Proof. intros H. rewrite map_app. apply join_last. destruct es; [congruence|discriminate]. Qed.

  (** What the tree of a part stands for. *)
  Definition said (h : hole) (es : list lexp) : list sym := match h with HArg _ _ => concat (map (lwritten M) es) | HList n => join (ls_sep M n) (map (lwritten M) es) end.
  Definition hname (h : hole) : str := match h with HArg s i => E s i | HList n => ls_name M n end.
  Definition hok (h : hole) : Prop := match h with HArg s i => ok s i | HList n => n < ls_count M end.
  Definition in_tree (tr : tree) : Prop := forall h, hok h -> tree_ok g tr -> root g tr = Some (SNon (hname h)) -> exists es, lmeans g M tr es /\ fills M h es /\ yield tr = said h es.
  Lemma slots_in l : (forall x, In x l -> match x with Tok t => terminal t | Arg s' i' => s' < lg_sorts M /\ i' <= top s' | Lst n => n < ls_count M end) ->
    forall ts, Forall in_tree ts -> Forall (tree_ok g) ts -> map (root g) ts = map Some (sy l) ->
    exists ess, Forall2 (lmeans g M) (nodes ts) ess /\ Forall2 (fills M) (holes l) ess /\ flat_map yield ts = fill M l (map (map (lwritten M)) ess).
  Proof.
    induction l as [|x l IH]; intros Hl [|t ts] HI HO Hm; try discriminate Hm; [exists []; repeat constructor|].
    cbn [map] in Hm. injection Hm as Hr Hm. inversion HI as [|? ? I1 I2]; subst. inversion HO as [|? ? O1 O2]; subst.
    destruct (IH (fun y Hy => Hl y (or_intror Hy)) ts I2 O2 Hm) as (ess & G1 & G2 & G3). pose proof (Hl x (or_introl eq_refl)) as Hx. destruct x as [y|s i|n]; cbn [slot_sym] in Hr.
    - apply root_leaf in Hr; auto. subst t. exists ess. split; [exact G1|]. split; [exact G2|]. cbn. rewrite G3. reflexivity.
    - destruct (I1 (HArg s i) Hx O1 Hr) as (e & M1 & M2 & M3). destruct (root_node _ _ _ Hr O1) as (q & us & ->). exists (e :: ess).
      split; [cbn; constructor; auto|]. split; [cbn; constructor; auto|]. cbn [flat_map map fill]. rewrite M3, G3. reflexivity.
    - destruct (I1 (HList n) Hx O1 Hr) as (e & M1 & M2 & M3). destruct (root_node _ _ _ Hr O1) as (q & us & ->). exists (e :: ess).
      split; [cbn; constructor; auto|]. split; [cbn; constructor; auto|]. cbn [flat_map map fill]. rewrite M3, G3. reflexivity.
  Qed.
  Lemma fills_arg s i es : fills M (HArg s i) es -> exists e, es = [e] /\ lproper M s i e.
  Proof. intros H. inversion H; subst. eauto. Qed.
  Lemma tree_in' tr : in_tree tr.
  Proof using W HR OK Hfresh Hfresh'.
    induction tr as [y|p ts IH] using tree_ind'; intros h Hh Ho Hr.
    { cbn [root] in Hr. injection Hr as ->. apply tree_ok_leaf in Ho. destruct (Ho _ eq_refl). }
    apply tree_ok_node in Ho as (pr & Hp & Hts & Hm). cbn [root] in Hr. rewrite Hp in Hr. injection Hr as Hr. assert (Hru : rul p (p_name pr) (p_syms pr)) by (exists pr; auto).
    destruct h as [s i|n]; cbn [hok hname said] in *.
    - pose proof (names_lev _ _ _ _ Hh Hp Hr) as Hl.
      destruct (lev_rule _ _ _ Hl) as [(f & Hf & H)|(Hin & H)]; destruct (rul_fun _ _ _ _ _ _ Hru H) as [En Eb]; rewrite Eb in Hm.
      + destruct (slots_in (form_slots M s i f) (mk_slots _ OK s i f Hf) ts IH Hts Hm) as (ess & G1 & G2 & G3).
        exists [LOp s i f ess]. split; [eapply lm_op; eauto|]. split; [constructor; apply (lp_op M s i i); auto|]. cbn [map concat]. rewrite app_nil_r. exact G3.
      + destruct ts as [|t1 [|t2 ts]]; try discriminate Hm. injection Hm as M1. inversion IH as [|? ? I1 _]; subst. inversion Hts as [|? ? O1 _]; subst.
        assert (Ho : ok s (S i)) by (destruct Hh; split; auto). destruct (I1 (HArg s (S i)) Ho O1 M1) as (es & G1 & G2 & G3). apply fills_arg in G2 as (e & -> & G2).
        exists [e]. split; [eapply lm_pass; eauto|]. split; [constructor; eapply proper_low; eauto|]. cbn [yield flat_map]. rewrite app_nil_r. exact G3.
    - destruct (names_lst _ _ _ Hh Hp Hr) as [(_ & _ & H)|(_ & _ & H)]; destruct (rul_fun _ _ _ _ _ _ Hru H) as [En Eb]; rewrite Eb in Hm; pose proof (list_ok n Hh) as Ho.
      + destruct ts as [|t1 [|t2 ts]]; try discriminate Hm. injection Hm as M1. inversion IH as [|? ? I1 _]; subst. inversion Hts as [|? ? O1 _]; subst.
        destruct (I1 (HArg (ls_sort M n) 0) Ho O1 M1) as (es & G1 & G2 & G3). apply fills_arg in G2 as (e & -> & G2).
        exists [e]. split; [eapply lm_pass; eauto|]. split; [constructor; auto|]. cbn [yield flat_map]. rewrite app_nil_r. rewrite G3. cbn. apply app_nil_r.
      + destruct ts as [|t1 [|t2 [|t3 [|t4 ts]]]]; try discriminate Hm. injection Hm as M1 M2 M3. inversion IH as [|? ? I1 I2]; subst. inversion I2 as [|? ? _ I3]; subst. inversion I3 as [|? ? I4 _]; subst.
        inversion Hts as [|? ? O1 O2]; subst. inversion O2 as [|? ? _ O3]; subst. inversion O3 as [|? ? O4 _]; subst.
        destruct (I1 (HList n) Hh O1 M1) as (es & G1 & G2 & G3). destruct (I4 (HArg (ls_sort M n) 0) Ho O4 M3) as (es' & K1 & K2 & K3). apply fills_arg in K2 as (e & -> & K2).
        apply root_leaf in M2; [|apply (mk_list _ OK n Hh)]. subst t2. exists (es ++ [e]). split; [eapply (lm_more g M p pr n); eauto; congruence|]. split; [constructor; auto|].
        cbn [yield flat_map]. rewrite G3, K3. cbn [said map concat app]. rewrite !app_nil_r. rewrite fill_list by (eapply fills_some; eauto). reflexivity.
  Qed.
  Lemma tree_in tr s i : ok s i -> tree_ok g tr -> root g tr = Some (SNon (E s i)) -> exists e, lmeans g M tr [e] /\ lproper M s i e /\ yield tr = lwritten M e.
  Proof using W HR OK Hfresh Hfresh'.
    intros Ho Ht Hr. destruct (tree_in' tr (HArg s i) Ho Ht Hr) as (es & H1 & H2 & H3). apply fills_arg in H2 as (e & -> & H2). exists e. split; auto. split; auto.
    rewrite H3. cbn. apply app_nil_r.
  Qed.

  Definition has_tree (h : hole) (es : list lexp) : Prop := exists p ts, tree_ok g (Node p ts) /\ root g (Node p ts) = Some (SNon (hname h)) /\ lmeans g M (Node p ts) es /\ yield (Node p ts) = said h es.
  Lemma tree_up s j e : ok s j -> has_tree (HArg s j) [e] -> forall i, i <= j -> has_tree (HArg s i) [e].
  Proof using HR'.
    intros [Hs Hj] H i Hi. remember (j - i) as t eqn:Et. revert i Hi Et. induction t as [|t IH]; intros i Hi Et; [replace i with j by lia; exact H|].
    destruct (IH (S i) ltac:(lia) ltac:(lia)) as (p & ts & Ho & Hr & Hm & Hy).
    destruct (HR' _ _ (lr_pass M s i Hs ltac:(lia))) as (q & pq & _ & Hq & En & Eb).
    exists q, [Node p ts]. split; [econstructor; [exact Hq|constructor; auto|rewrite Eb; cbn [map]; rewrite Hr; reflexivity]|]. split; [cbn [root]; rewrite Hq, En; reflexivity|].
    split; [eapply lm_pass; eauto|]. cbn [yield flat_map] in *. rewrite app_nil_r. exact Hy.
  Qed.
  Lemma slots_out l : (forall t, In (Tok t) l -> terminal t) -> forall ess, Forall2 has_tree (holes l) ess ->
    exists ts, Forall (tree_ok g) ts /\ map (root g) ts = map Some (sy l) /\ Forall2 (lmeans g M) (nodes ts) ess /\ flat_map yield ts = fill M l (map (map (lwritten M)) ess).
  Proof.
    induction l as [|x l IH]; intros Hl ess H.
    - inversion H; subst. exists []. repeat constructor.
    - destruct x as [t|s i|n].
      + destruct (IH (fun t Ht => Hl t (or_intror Ht)) ess H) as (ts & G1 & G2 & G3 & G4). exists (Leaf t :: ts).
        split; [constructor; auto; constructor; apply Hl; left; reflexivity|]. split; [cbn [map root slot_sym]; rewrite G2; reflexivity|]. split; [exact G3|]. cbn. rewrite G4. reflexivity.
      + cbn [holes flat_map app] in H. inversion H as [|h e0 hs es' H1 H2 E1 E2]; subst. destruct (IH (fun t Ht => Hl t (or_intror Ht)) es' H2) as (ts & G1 & G2 & G3 & G4).
        destruct H1 as (p & us & Ho & Hr & Hm & Hy). exists (Node p us :: ts).
        split; [constructor; auto|]. split; [cbn [map slot_sym]; rewrite Hr, G2; reflexivity|]. split; [cbn; constructor; auto|]. cbn [flat_map map fill]. rewrite Hy, G4. reflexivity.
      + cbn [holes flat_map app] in H. inversion H as [|h e0 hs es' H1 H2 E1 E2]; subst. destruct (IH (fun t Ht => Hl t (or_intror Ht)) es' H2) as (ts & G1 & G2 & G3 & G4).
        destruct H1 as (p & us & Ho & Hr & Hm & Hy). exists (Node p us :: ts).
        split; [constructor; auto|]. split; [cbn [map slot_sym]; rewrite Hr, G2; reflexivity|]. split; [cbn; constructor; auto|]. cbn [flat_map map fill]. rewrite Hy, G4. reflexivity.
  Qed.
  Lemma fills_out h es : hok h -> fills M h es -> Forall (fun e => forall s i, lproper M s i e -> has_tree (HArg s i) [e]) es -> has_tree h es.
  Proof using HR' OK.
    intros Hh H. revert Hh. induction H as [s i e He|n e He|n es e H IH He]; intros Hh HF.
    - inversion HF; subst. auto.
    - inversion HF as [|? ? H1 _]; subst. destruct (H1 _ _ He) as (p & ts & Ho & Hr & Hm & Hy).
      destruct (HR' _ _ (lr_one M n Hh)) as (q & pq & _ & Hq & En & Eb).
      exists q, [Node p ts]. split; [econstructor; [exact Hq|constructor; auto|rewrite Eb; cbn [map]; rewrite Hr; reflexivity]|]. split; [cbn [root]; rewrite Hq, En; reflexivity|].
      split; [eapply lm_pass; eauto|]. cbn [yield flat_map said map concat] in *. rewrite !app_nil_r in *. exact Hy.
    - apply Forall_app in HF as [HF HE]. inversion HE as [|? ? H1 _]; subst. destruct (IH Hh HF) as (p & ts & Ho & Hr & Hm & Hy). destruct (H1 _ _ He) as (p' & ts' & Ho' & Hr' & Hm' & Hy').
      destruct (HR' _ _ (lr_more M n Hh)) as (q & pq & _ & Hq & En & Eb). pose proof (mk_list _ OK n Hh) as (_ & Ht & _).
      exists q, [Node p ts; Leaf (ls_sep M n); Node p' ts']. split; [econstructor; [exact Hq|repeat constructor; auto|rewrite Eb; cbn [map]; rewrite Hr, Hr'; reflexivity]|]. split; [cbn [root]; rewrite Hq, En; reflexivity|].
      split; [eapply (lm_more g M q pq n); eauto|]. change (yield (Node p ts) ++ ls_sep M n :: yield (Node p' ts') ++ [] = said (HList n) (es ++ [e])).
      rewrite Hy, Hy'. cbn [said map concat]. rewrite !app_nil_r. rewrite fill_list by (eapply fills_some; eauto). reflexivity.
  Qed.
  Lemma tree_out e : forall s i, lproper M s i e -> has_tree (HArg s i) [e].
  Proof using HR' OK.
    revert e. fix self 1. intros [s0 j f ess].
    assert (IH : Forall (Forall (fun e => forall s i, lproper M s i e -> has_tree (HArg s i) [e])) ess).
    { induction ess as [|es ess IH]; constructor; [|exact IH]. clear IH. induction es as [|e es IH]; constructor; [apply self|exact IH]. }
    clear self. intros s i H. remember (LOp s0 j f ess) as e eqn:Ee. destruct H as [s i j1 f1 es1 Hij Hf Hes]. injection Ee as -> -> -> ->. apply (tree_up s0 j); [eapply form_ok; eauto| |exact Hij].
    assert (HT : Forall2 has_tree (holes (form_slots M s0 j f)) ess).
    { assert (HK : forall h, In h (holes (form_slots M s0 j f)) -> hok h).
      { intros h Hh. apply in_flat_map in Hh as (x & Hx & Hh). pose proof (mk_slots _ OK _ _ _ Hf x Hx) as Hok. destruct x as [t|s' i'|n]; [destruct Hh|destruct Hh as [<-|[]]; exact Hok..]. }
      clear -IH Hes HK HR' OK. induction Hes; [constructor|]. inversion IH; subst. constructor; [apply fills_out; auto; apply HK; left; reflexivity|apply IHHes; auto; intros; apply HK; right; auto]. }
    destruct (slots_out (form_slots M s0 j f)) with (ess := ess) as (ts & G1 & G2 & G3 & G4); auto.
    { intros t Ht. apply (mk_slots _ OK s0 j f Hf (Tok t)), Ht. }
    destruct (HR' _ _ (lr_form M s0 j f Hf)) as (p & pr & _ & Hp & En & Eb). exists p, ts.
    split; [econstructor; [exact Hp|exact G1|rewrite Eb; exact G2]|]. split; [cbn [root]; rewrite Hp, En; reflexivity|]. split; [eapply lm_op; eauto|]. cbn [said map concat]. rewrite app_nil_r. exact G4.
  Qed.
  Lemma means_fun tr : forall e e', lmeans g M tr e -> lmeans g M tr e' -> e = e'.
  Proof using OK.
    induction tr as [y|p ts IH] using tree_ind'; intros e e' H H'; [inversion H|].
    assert (N : forall s i f A, is_form M s i f -> [SNon A] <> sy (form_slots M s i f)).
    { intros s i f A Hf E0. pose proof (first_in s i f) as Hi. unfold body in Hi. rewrite <- E0 in Hi. destruct Hi as [Hi|[]]. eapply first_term; eauto. }
    assert (NL : forall s i f n A, is_form M s i f -> n < ls_count M -> A = E s i -> A = ls_name M n -> False).
    { intros s i f n A Hf Hn E1 E2. apply (other n s i Hn); [eapply form_ok; eauto|congruence]. }
    inversion H as [p1 pr1 A1 t1 e1 Hp1 Hs1 Hm1 E1 E2|p1 pr1 n1 t1 x1 t1' e1 e1' Hp1 Hc1 Hn1 Hs1 Hm1 Hm1' E1 E2|p1 pr1 s1 i1 f1 ts1 es1 Hp1 Hf1 Hn1 Hs1 Hm1 E1 E2]; subst;
      inversion H' as [p2 pr2 A2 t2 e2 Hp2 Hs2 Hm2 E1 E2|p2 pr2 n2 t2 x2 t2' e2 e2' Hp2 Hc2 Hn2 Hs2 Hm2 Hm2' E1 E2|p2 pr2 s2 i2 f2 ts2 es2 Hp2 Hf2 Hn2 Hs2 Hm2 E1 E2]; subst; rewrite Hp1 in Hp2; injection Hp2 as <-; try congruence.
    - inversion IH as [|? ? I1 _]; subst. eauto.
    - exfalso. apply (N _ _ _ A1 Hf2). congruence.
    - inversion IH as [|? ? I1 I2]; subst. inversion I2 as [|? ? _ I3]; subst. inversion I3 as [|? ? I4 _]; subst. f_equal; eauto.
    - exfalso. eapply NL; [exact Hf2|exact Hc1|exact Hn2|exact Hn1].
    - exfalso. apply (N _ _ _ A2 Hf1). congruence.
    - exfalso. eapply NL; [exact Hf1|exact Hc2|exact Hn1|exact Hn2].
    - destruct (same_form s1 i1 f1 s2 i2 f2 Hf1 Hf2) as (<- & <- & <-); [congruence|unfold body; congruence|]. f_equal. f_equal.
      assert (IN : Forall (fun t => forall e e', lmeans g M t e -> lmeans g M t e' -> e = e') (nodes ts)).
      { clear -IH. induction IH as [|t ts H _ IH]; [constructor|]. destruct t; cbn; [exact IH|constructor; auto]. }
      clear -Hm1 Hm2 IN. revert es2 Hm2 IN. induction Hm1 as [|t e l l' H1 _ IHm]; intros es2 Hm2 IN; inversion Hm2; subst; auto. inversion IN; subst. f_equal; auto.
  Qed.
End Seq.
