(** Item sets of epsilon-free grammars: the code's closure is the standard one, and exactly when
    the canonical collection exists. *)
From Verif Require Import Base Grammar GrammarSpec GrammarProofs First FirstProofs Item ItemSpec ItemProofs.

Lemma in_snoc_neq {A} (l : list A) x y : ~ In y l -> x <> y -> ~ In y (l ++ [x]).
Proof. intros H1 H2 H. apply in_app_or in H as [H|[H|[]]]; auto. Qed.

Section Plain.
  Variables (g : grammar) (start : str).
  Hypothesis W : wf_grammar g start.
  Hypothesis He : eps_free g.

  Lemma tokens_no_eps k : nth_error (g_tokens g) k <> Some SEps.
  Proof using W He.
    intros H. destruct (token_inv _ _ W _ _ H) as [C|(p & Hp & Hx)]; [discriminate|].
    destruct (He p Hp) as [_ C]. auto.
  Qed.

  Lemma rest_in p d x : In x (rest g p d) -> exists pr, In pr (g_prods g) /\ In x (p_syms pr).
  Proof.
    unfold rest. destruct (nth_error (g_prods g) p) as [pr|] eqn:E; [|intros []].
    intros H. exists pr. split; [eauto using nth_error_In|].
    rewrite <- (firstn_skipn d (p_syms pr)). apply in_or_app. auto.
  Qed.

  Lemma rest_no_eps p d : ~ In SEps (rest g p d).
  Proof using He. intros H. destruct (rest_in _ _ _ H) as (pr & Hp & Hx). destruct (He pr Hp) as [_ C]. auto. Qed.

  Lemma F_code_std l s y : l <> [] -> ~ In SEps l -> first g l = Ok s -> F_code g l y <-> F_std g l y.
  Proof using W He.
    intros Hl Hn H. destruct l as [|x l]; [tauto|].
    assert (Hx : x <> SEps) by (intros ->; apply Hn; left; reflexivity).
    destruct (first_spec g _ W He x l s Hx H) as [_ Hs]. unfold F_code, F_std. rewrite H. split.
    - intros (s' & E & Hy). injection E as <-. apply Hs in Hy as [H1 H2]. split; auto.
      apply (lms_derives_iff g He x l y H2), H1.
    - intros [Ht Hd]. exists s. split; auto. apply Hs. split; auto. apply (lms_derives_iff g He x l y Ht), Hd.
  Qed.

  Lemma F_code_std_at p d k a s y : nth_error (g_tokens g) k = Some a -> first g (rest g p d ++ [a]) = Ok s ->
    F_code g (rest g p d ++ [a]) y <-> F_std g (rest g p d ++ [a]) y.
  Proof using W He.
    intros Ha. apply F_code_std.
    - destruct (rest g p d); discriminate.
    - apply in_snoc_neq; [apply rest_no_eps|]. intros ->. exact (tokens_no_eps _ Ha).
  Qed.

  (** A closure that could be computed is the standard one. *)
  Lemma clo_std K : ready g (clo g (F_code g) K) ->
    forall p d k, clo g (F_code g) K p d k <-> clo g (F_std g) K p d k.
  Proof using W He.
    intros Hr p d k. split.
    - induction 1 as [p d k H|p d k a q pq b k' Hc IH Hs Hq Ha HF Ht]; [apply clo_base, H|].
      eapply clo_rule; eauto. destruct HF as (s & Es & Hb). apply (F_code_std_at _ _ _ _ _ _ Ha Es). exists s. auto.
    - induction 1 as [p d k H|p d k a q pq b k' Hc IH Hs Hq Ha HF Ht]; [apply clo_base, H|].
      eapply clo_rule; eauto. destruct (Hr _ _ _ IH) as [_ H1]. destruct (H1 _ Hs) as (_ & a' & Ha' & s & Es & _).
      rewrite Ha in Ha'. injection Ha' as <-. apply (F_code_std_at _ _ _ _ _ _ Ha Es). exact HF.
  Qed.

  Lemma clo_code_std K p d k : clo g (F_code g) K p d k -> clo g (F_std g) K p d k.
  Proof using W He.
    induction 1 as [p d k H|p d k a q pq b k' Hc IH Hs Hq Ha HF Ht]; [apply clo_base, H|].
    eapply clo_rule; eauto. destruct HF as (s & Es & Hb). apply (F_code_std_at _ _ _ _ _ _ Ha Es). exists s. auto.
  Qed.

  Definition lr_std := lr_state g (F_std g).

  (** The states for the standard FIRST are those for the code's, up to equivalence. *)
  Lemma lr_std_code : Good g -> forall I, lr_std I -> exists J, lr g J /\ forall p d k, I p d k <-> J p d k.
  Proof using W He.
    intros HG I. induction 1 as [|I x HI (J & HJ & E) Hne].
    - exists (clo g (F_code g) init_set). split; [constructor|]. intros p d k. symmetry. apply clo_std.
      apply HG. constructor.
    - exists (clo g (F_code g) (move g J x)). pose proof (move_ext g _ _ x E) as Hm.
      assert (HJ' : lr g (clo g (F_code g) (move g J x))).
      { apply lr_goto; auto. destruct Hne as (p & d & k & H). exists p, d, k. apply Hm, H. }
      split; auto. intros p d k. rewrite (clo_ext g (F_std g) _ _ Hm p d k). symmetry. apply clo_std. apply HG, HJ'.
  Qed.
  Lemma lr_code_std : Good g -> forall I, lr g I -> exists J, lr_std J /\ forall p d k, I p d k <-> J p d k.
  Proof using W He.
    intros HG I. induction 1 as [|I x HI (J & HJ & E) Hne].
    - exists (clo g (F_std g) init_set). split; [constructor|]. intros p d k. apply clo_std.
      apply HG. constructor.
    - exists (clo g (F_std g) (move g J x)). pose proof (move_ext g _ _ x E) as Hm.
      split.
      + apply lr_goto; auto. destruct Hne as (p & d & k & H). exists p, d, k. apply Hm, H.
      + intros p d k. rewrite <- (clo_ext g (F_std g) _ _ Hm p d k). apply clo_std. apply HG. apply lr_goto; auto.
  Qed.

  (** Lookaheads are terminals. *)
  Lemma lr_lookahead I : lr g I -> forall p d k, I p d k -> exists a, nth_error (g_tokens g) k = Some a /\ terminal a.
  Proof using W He.
    assert (Gc : forall K : lrset, (forall p d k, K p d k -> exists a, nth_error (g_tokens g) k = Some a /\ terminal a) ->
       forall p d k, clo g (F_code g) K p d k -> exists a, nth_error (g_tokens g) k = Some a /\ terminal a).
    { intros K HK p d k. induction 1 as [p d k H|p d k a q pq b k' Hc IH Hs Hq Ha HF [Ht _]]; eauto.
      exists b. split; auto. destruct HF as (s & Es & Hb).
      apply (F_code_std_at p (S d) k a s b Ha Es). exists s. auto. }
    induction 1 as [|I x HI IH Hne]; apply Gc.
    - intros p d k (-> & -> & ->). exists SEof. split; [apply (token_eof _ _ W)|intros n; discriminate].
    - intros p d k (d' & -> & Hi & _). eauto.
  Qed.

  (** States are closed. *)
  Lemma lr_closed I : lr g I -> forall p d k, clo g (F_code g) I p d k -> I p d k.
  Proof. destruct 1; intros p d k; apply clo_idem. Qed.

  Lemma lr_reachable I : lr g I -> forall p d k, I p d k -> reachable g p.
  Proof.
    assert (Gc : forall K : lrset, (forall p d k, K p d k -> reachable g p) ->
       forall p d k, clo g (F_code g) K p d k -> reachable g p).
    { intros K HK p d k. induction 1 as [p d k H|p d k a q pq b k' Hc IH (pr & Hp & Hs) Hq Ha HF Ht]; eauto.
      eapply reach_next; eauto using nth_error_In. }
    induction 1 as [|I x HI IH Hne]; apply Gc.
    - intros p d k (-> & _). constructor.
    - intros p d k (d' & -> & Hi & _). eauto.
  Qed.

  Lemma first_at_nonempty p d k a s : nth_error (g_tokens g) k = Some a -> first g (rest g p d ++ [a]) = Ok s ->
    exists y, In y s.
  Proof using W He.
    intros Ha H. destruct (rest g p d ++ [a]) as [|x l] eqn:E; [destruct (rest g p d); discriminate|].
    eapply first_nonempty; eauto. intros ->.
    apply (in_snoc_neq (rest g p d) a SEps (rest_no_eps _ _)).
    - intros ->. exact (tokens_no_eps _ Ha).
    - rewrite E. left; reflexivity.
  Qed.

  (** Every position of a reachable production occurs in a state. *)
  Lemma advance p pr : nth_error (g_prods g) p = Some pr -> forall d, d <= length (p_syms pr) ->
    (exists I k, lr g I /\ I p 0 k) -> exists I k, lr g I /\ I p d k.
  Proof.
    intros Hp d Hd H0. induction d as [|d IH]; auto.
    destruct IH as (I & k & HI & Hk); [lia|].
    destruct (nth_error (p_syms pr) d) as [x|] eqn:Ex; [|apply nth_error_None in Ex; lia].
    assert (Hm : move g I x p (S d) k) by (exists d; split; auto; split; auto; exists pr; auto).
    exists (clo g (F_code g) (move g I x)), k. split; [apply lr_goto; eauto|apply clo_base, Hm].
  Qed.

  Lemma reachable_state : Good g -> forall p, reachable g p -> forall pr d, nth_error (g_prods g) p = Some pr ->
    d <= length (p_syms pr) -> exists I k, lr g I /\ I p d k.
  Proof using W He.
    intros HG p. induction 1 as [|p pr0 q pq Hr IH Hp0 Hin Hq]; intros pr d Hp Hd.
    - eapply advance; eauto. exists (clo g (F_code g) init_set), 0. split; [constructor|]. apply clo_base. repeat split.
    - eapply advance; eauto. apply In_nth_error in Hin as [e He'].
      destruct (IH pr0 e Hp0) as (I & k & HI & Hk); [apply nth_error_lt in He'; lia|].
      assert (Hs : sym_at g p e (SNon (p_name pq))) by (exists pr0; auto).
      destruct (HG I HI _ _ _ Hk) as [_ H1]. destruct (H1 _ Hs) as (_ & a & Ha & s & Es & Hin').
      destruct (first_at_nonempty _ _ _ _ _ Ha Es) as [y Hy].
      destruct (proj1 (get_token_idx_In g y) (Hin' y Hy)) as [k' Hk']. apply tok_idx in Hk'.
      exists I, k'. split; auto. apply (lr_closed _ HI). 
      refine (clo_rule g (F_code g) I p e k a q pq y k' (clo_base _ _ _ _ _ _ Hk) Hs Hq Ha (ex_intro _ s (conj Es Hy)) Hk').
  Qed.

  (** The condition under which the collection can be computed. *)
  Definition computable : Prop := forall p pr d B, reachable g p -> nth_error (g_prods g) p = Some pr ->
    nth_error (p_syms pr) d = Some (SNon B) ->
    has_rule g B /\
    forall x, nth_error (p_syms pr) (S d) = Some x ->
      forall A, lms g x (SNon A) -> has_rule g A /\ ~ left_recursive g A.

  Lemma rest_cons p pr d x : nth_error (g_prods g) p = Some pr -> nth_error (p_syms pr) d = Some x ->
    rest g p d = x :: rest g p (S d).
  Proof.
    intros Hp Hx. unfold rest. rewrite Hp. clear Hp. revert d Hx. induction (p_syms pr) as [|y l IH]; intros [|d] Hx; simpl in *; try discriminate.
    - congruence.
    - apply IH, Hx.
  Qed.
  Lemma rest_nil p pr d : nth_error (g_prods g) p = Some pr -> nth_error (p_syms pr) d = None -> rest g p d = [].
  Proof. intros Hp Hx. unfold rest. rewrite Hp. apply nth_error_None in Hx. apply skipn_all2, Hx. Qed.

  Lemma first_terminal a : terminal a -> a <> SEps -> first g [a] = Ok [a].
  Proof using W He.
    intros Ht Ha. rewrite (first_cons g start W He a [] Ha). unfold first_fuel.
    destruct a as [|n| | |]; try reflexivity. destruct (Ht n eq_refl).
  Qed.

  Lemma first_tokens x l s : x <> SEps -> In x (g_tokens g) -> first g (x :: l) = Ok s -> forall y, In y s -> In y (g_tokens g).
  Proof using W He.
    intros Hx Hin H y Hy. destruct (first_spec g _ W He x l s Hx H) as [_ Hs]. apply Hs in Hy as [Hl _].
    clear Hx H Hs. induction Hl as [x|A z b w (p & Hp & _ & Eb) Hl IH]; auto.
    apply IH. eapply (token_of_body _ _ W); eauto. rewrite Eb. left; reflexivity.
  Qed.

  Lemma computable_good : computable -> Good g.
  Proof using W He.
    intros HC I HI p d k Hk. destruct (lr_valid _ _ W _ HI _ _ _ Hk) as (pr & Hp & _). split; [eauto|].
    intros B (pr' & Hp' & Hd). rewrite Hp in Hp'. injection Hp' as <-.
    destruct (HC p pr d B (lr_reachable _ HI _ _ _ Hk) Hp Hd) as [Hr Hx]. split; auto.
    destruct (lr_lookahead _ HI _ _ _ Hk) as (a & Ha & Hta). exists a. split; auto.
    assert (Hae : a <> SEps) by (intros ->; exact (tokens_no_eps _ Ha)).
    destruct (nth_error (p_syms pr) (S d)) as [x|] eqn:Ex.
    - rewrite (rest_cons _ _ _ _ Hp Ex).
      assert (Hxe : x <> SEps).
      { intros ->. destruct (He pr (nth_error_In _ _ Hp)) as [_ C]. apply C. eauto using nth_error_In. }
      destruct (proj2 (first_returns_exact g _ W He x (rest g p (S (S d)) ++ [a]) Hxe) (Hx x eq_refl)) as [s Es].
      exists s. split; auto. eapply first_tokens; eauto.
      eapply (token_of_body _ _ W); eauto using nth_error_In.
    - rewrite (rest_nil _ _ _ Hp Ex). exists [a]. split; [apply first_terminal; auto|].
      intros y [<-|[]]. eauto using nth_error_In.
  Qed.

  Lemma good_computable : Good g -> computable.
  Proof using W He.
    intros HG p pr d B Hr Hp Hd.
    destruct (reachable_state HG p Hr pr d Hp) as (I & k & HI & Hk); [apply nth_error_lt in Hd; lia|].
    destruct (HG I HI _ _ _ Hk) as [_ H]. destruct (H B) as (HB & a & Ha & s & Es & _); [exists pr; auto|].
    split; auto. intros x Hx. rewrite (rest_cons _ _ _ _ Hp Hx) in Es.
    assert (Hxe : x <> SEps).
    { intros ->. destruct (He pr (nth_error_In _ _ Hp)) as [_ C]. apply C. eauto using nth_error_In. }
    apply (first_returns_exact g _ W He x (rest g p (S (S d)) ++ [a]) Hxe). eauto.
  Qed.

  Lemma items_ok_iff : (exists C, items g = Ok C) <-> computable.
  Proof using W He.
    split.
    - intros [C HC]. apply good_computable. destruct (items_gen g _ W) as [(i0 & C' & _ & _ & _ & _ & _ & HG)|[Hno _]]; auto.
      destruct (Hno _ HC).
    - intros H. apply computable_good in H. destruct (items_gen g _ W) as [(i0 & C' & E & _)|[_ Hno]]; eauto. tauto.
  Qed.

  (** FIRST runs for ever only on a left-recursive non-terminal. *)
  Lemma first_div_left x l : x <> SEps -> first g (x :: l) = Diverge -> exists A, lms g x (SNon A) /\ left_recursive g A.
  Proof using W He.
    intros Hx. rewrite (first_cons g start W He x l Hx). intros H.
    assert (Hk : kind (first_sym (first_fuel g) g [] x) = Diverge).
    { apply kind_div. destruct (first_sym (first_fuel g) g [] x) as [[s b]| |]; simpl in H; congruence. }
    rewrite kind_first in Hk. destruct (as_non x) as [n|] eqn:En.
    - destruct x; try discriminate. injection En as ->. apply (div_left_recursive g start W He). exact Hk.
    - unfold first_fuel in Hk. simpl in Hk. rewrite En in Hk. discriminate.
  Qed.

  Lemma items_div_left : items g = Diverge -> exists p pr d B x A, reachable g p /\ nth_error (g_prods g) p = Some pr /\
    nth_error (p_syms pr) d = Some (SNon B) /\ nth_error (p_syms pr) (S d) = Some x /\
    lms g x (SNon A) /\ left_recursive g A.
  Proof using W He.
    intros H. destruct (items_div g _ W H) as (I & p & d & k & a & B & HI & Hk & (pr & Hp & Hd) & Ha & Hf).
    destruct (nth_error (p_syms pr) (S d)) as [x|] eqn:Ex.
    - rewrite (rest_cons _ _ _ _ Hp Ex) in Hf.
      assert (Hxe : x <> SEps).
      { intros ->. destruct (He pr (nth_error_In _ _ Hp)) as [_ C]. apply C. eauto using nth_error_In. }
      destruct (first_div_left _ _ Hxe Hf) as (A & Hl & HA).
      exists p, pr, d, B, x, A. split; auto. eapply lr_reachable; eauto.
    - rewrite (rest_nil _ _ _ Hp Ex) in Hf. destruct (lr_lookahead _ HI _ _ _ Hk) as (a' & Ha' & Hta).
      rewrite Ha in Ha'. injection Ha' as <-. simpl in Hf. rewrite first_terminal in Hf; auto; [discriminate|].
      intros ->. exact (tokens_no_eps _ Ha).
  Qed.
End Plain.
