(** Grammars that agree on the rules the start symbol uses: everything the code computes from them is
    the same up to renumbering.  Here the correspondence of the automata and of the tables. *)
From Verif Require Import Base Grammar GrammarSpec GrammarProofs First FirstProofs Item ItemSpec ItemProofs ItemPlain Table
  MergeProofs TableSpec TableProofs TableFacts Iso.

(** The symbols of the rules in use, and the numbers of their tokens. *)
Definition used (g : grammar) (x : sym) : Prop :=
  x = SEof \/ exists p pr, reachable g p /\ nth_error (g_prods g) p = Some pr /\ In x (p_syms pr).
Definition utok (g : grammar) (k : nat) : Prop := exists x, used g x /\ tok g k x.

(** Corresponding grammars: productions in use by [P], tokens in use by [K]. *)
Record part (g g' : grammar) (P P' K K' : nat -> nat) : Prop := {
  pt_P : bij P P'; pt_K : bij K K'; pt_P0 : P 0 = 0; pt_K0 : K 0 = 0;
  pt_prod : forall p pr, reachable g p -> nth_error (g_prods g) p = Some pr ->
    exists pr', nth_error (g_prods g') (P p) = Some pr' /\ p_name pr' = p_name pr /\ p_syms pr' = p_syms pr;
  pt_prod' : forall p pr, reachable g' p -> nth_error (g_prods g') p = Some pr ->
    exists pr', nth_error (g_prods g) (P' p) = Some pr' /\ p_name pr' = p_name pr /\ p_syms pr' = p_syms pr;
  pt_tok : forall k x, used g x -> tok g k x -> tok g' (K k) x;
  pt_tok' : forall k x, used g' x -> tok g' k x -> tok g (K' k) x;
  pt_eof : tok g 0 SEof; pt_eof' : tok g' 0 SEof }.

Lemma part_sym g g' P P' K K' : part g g' P P' K K' -> part g' g P' P K' K.
Proof.
  intros [HP HK H0 H1 H2 H3 H4 H5 H6 H7]. constructor; auto using bij_sym.
  - rewrite <- H0 at 1. apply HP.
  - rewrite <- H1 at 1. apply HK.
Qed.

(** A set of items of the rules in use. *)
Definition good (g : grammar) (I : lrset) : Prop := forall p d k, I p d k -> reachable g p /\ utok g k.

Lemma used_rule g A q pq : used g (SNon A) -> nth_error (g_prods g) q = Some pq -> p_name pq = A -> reachable g q.
Proof. intros [E|(p & pr & Hr & Hp & Hx)] Hq En; [discriminate|]. eapply reach_next; eauto. rewrite En. exact Hx. Qed.
Lemma used_at g p d x : reachable g p -> sym_at g p d x -> used g x.
Proof. intros Hr (pr & Hp & Hx). right. exists p, pr. split; auto. split; auto. eauto using nth_error_In. Qed.
Lemma used_rest g p d : reachable g p -> Forall (used g) (rest g p d).
Proof.
  intros Hr. apply Forall_forall. intros x Hx. unfold rest in Hx. destruct (nth_error (g_prods g) p) as [pr|] eqn:E; [|destruct Hx].
  right. exists p, pr. split; auto. split; auto. rewrite <- (firstn_skipn d). apply in_or_app. right. exact Hx.
Qed.

(** One direction; the other follows by symmetry. *)
Section Forward.
  Variables (g g' : grammar) (P P' K K' : nat -> nat).
  Hypothesis H : part g g' P P' K K'.
  Let Pl := bij_l _ _ (pt_P _ _ _ _ _ _ H).
  Let Kl := bij_l _ _ (pt_K _ _ _ _ _ _ H).

  Lemma pw_reachable p : reachable g p -> reachable g' (P p).
  Proof using H.
    induction 1 as [|p pr q pq Hr IH Hp Hx Hq].
    - rewrite (pt_P0 _ _ _ _ _ _ H). constructor.
    - destruct (pt_prod _ _ _ _ _ _ H p pr Hr Hp) as (pr' & E & _ & Es).
      destruct (pt_prod _ _ _ _ _ _ H q pq (reach_next _ _ _ _ _ Hr Hp Hx Hq) Hq) as (pq' & Eq & En & _).
      eapply reach_next; eauto. rewrite Es, En. exact Hx.
  Qed.
  Lemma pw_used x : used g x -> used g' x.
  Proof using H.
    intros [->|(p & pr & Hr & Hp & Hx)]; [left; reflexivity|right].
    destruct (pt_prod _ _ _ _ _ _ H p pr Hr Hp) as (pr' & E & _ & Es). exists (P p), pr'. rewrite Es. auto using pw_reachable.
  Qed.
  Lemma pw_utok k : utok g k -> utok g' (K k).
  Proof using H. intros (x & Hx & Hk). exists x. split; [apply pw_used, Hx|apply (pt_tok _ _ _ _ _ _ H); auto]. Qed.
  Lemma pw_rule A b : used g (SNon A) -> rule g A b -> rule g' A b /\ Forall (used g) b.
  Proof using H.
    intros Hu (q & Hq & En & Es). apply In_nth_error in Hq as [i Hi]. pose proof (used_rule _ _ _ _ Hu Hi En) as Hr.
    destruct (pt_prod _ _ _ _ _ _ H i q Hr Hi) as (pr' & E & H1 & H2). split.
    - exists pr'. split; [eauto using nth_error_In|]. split; congruence.
    - apply Forall_forall. intros x Hx. right. exists i, q. rewrite Es. auto.
  Qed.
  Lemma pw_has_rule A : used g (SNon A) -> has_rule g A -> has_rule g' A.
  Proof using H.
    intros Hu (q & Hq & E). destruct (pw_rule A (p_syms q) Hu) as [(p & Hp & En & _) _]; [exists q; auto|]. exists p. auto.
  Qed.
  Lemma pw_derives1 u v : Forall (used g) u -> derives1 g u v -> derives1 g' u v /\ Forall (used g) v.
  Proof using H.
    intros Hu Hd. destruct Hd as [a A b c HR]. apply Forall_app in Hu as [Ha Hu]. inversion Hu as [|? ? HA Hc]; subst.
    destruct (pw_rule A b HA HR) as [HR' Hb]. split; [constructor; exact HR'|]. apply Forall_app. split; auto. apply Forall_app. auto.
  Qed.
  Lemma pw_derives u v : derives g u v -> Forall (used g) u -> derives g' u v /\ Forall (used g) v.
  Proof using H.
    induction 1 as [u|u v w H1 _ IH]; intros Hu; [split; [constructor|exact Hu]|].
    destruct (pw_derives1 _ _ Hu H1) as [H1' Hv]. destruct (IH Hv) as [H2 Hw]. split; [econstructor; eauto|exact Hw].
  Qed.
  Lemma pw_first l y : Forall (used g) l -> F_std g l y -> F_std g' l y /\ used g y.
  Proof using H.
    intros Hl (Ht & w & Hd). destruct (pw_derives _ _ Hd Hl) as [Hd' Hu]. split; [split; eauto|]. inversion Hu; auto.
  Qed.
  Lemma pw_lms x y : lms g x y -> used g x -> lms g' x y /\ used g y.
  Proof using H.
    induction 1 as [|A y b z HR _ IH]; intros Hu; [split; [constructor|exact Hu]|].
    destruct (pw_rule _ _ Hu HR) as [HR' Hb]. inversion Hb; subst. destruct IH as [I1 I2]; auto. split; auto. eapply lms_step; eauto.
  Qed.
  Lemma pw_left A : used g (SNon A) -> left_recursive g A -> left_recursive g' A.
  Proof using H.
    intros Hu (b & c & H1 & H2). destruct (pw_derives1 _ _ (Forall_cons _ Hu (Forall_nil _)) H1) as [H1' Hb].
    destruct (pw_derives _ _ H2 Hb) as [H2' _]. exists b, c. auto.
  Qed.
  Lemma pw_sym_at p d x : reachable g p -> sym_at g p d x -> sym_at g' (P p) d x.
  Proof using H.
    intros Hr (pr & Hp & Hx). destruct (pt_prod _ _ _ _ _ _ H p pr Hr Hp) as (pr' & E & _ & Es). exists pr'. rewrite Es. auto.
  Qed.
  Lemma pw_complete p d : reachable g p -> complete g p d -> complete g' (P p) d.
  Proof using H.
    intros Hr (pr & Hp & ->). destruct (pt_prod _ _ _ _ _ _ H p pr Hr Hp) as (pr' & E & _ & Es). exists pr'. rewrite Es. auto.
  Qed.
  Lemma pw_rest p d pr : reachable g p -> nth_error (g_prods g) p = Some pr -> rest g' (P p) d = rest g p d.
  Proof using H.
    intros Hr Hp. destruct (pt_prod _ _ _ _ _ _ H p pr Hr Hp) as (pr' & E & _ & Es). unfold rest. rewrite Hp, E, Es. reflexivity.
  Qed.

  Lemma pw_clo S : good g S -> forall p d k, clo g (F_std g) S p d k ->
    (reachable g p /\ utok g k) /\ clo g' (F_std g') (im P' K' S) (P p) d (K k).
  Proof using H.
    intros HS p d k. induction 1 as [p d k Hk|p d k a q pq b k' _ [[Hr (a' & Ua & Ta)] IH] Hx Hq Ha HF Ht].
    - split; [exact (HS _ _ _ Hk)|]. apply clo_base. unfold im. rewrite Pl, Kl. exact Hk.
    - assert (a' = a) as -> by (destruct Ta as [Ta _]; congruence).
      pose proof (used_at _ _ _ _ Hr Hx) as Ux. pose proof (used_rule _ _ _ _ Ux Hq eq_refl) as Hrq.
      destruct (pw_first (rest g p (Datatypes.S d) ++ [a]) b) as [HF' Ub]; auto.
      { apply Forall_app. split; [apply used_rest, Hr|constructor; auto]. }
      destruct (pt_prod _ _ _ _ _ _ H q pq Hrq Hq) as (pq' & Eq & En & _).
      pose proof Hx as (pr & Hp & _).
      split; [split; [exact Hrq|exists b; auto]|].
      eapply clo_rule; [exact IH| |exact Eq|exact (proj1 (pt_tok _ _ _ _ _ _ H _ _ Ua Ta))| |exact (pt_tok _ _ _ _ _ _ H _ _ Ub Ht)].
      + rewrite En. apply pw_sym_at; auto.
      + rewrite (pw_rest p _ pr Hr Hp). exact HF'.
  Qed.
  Lemma clo_good S : good g S -> good g (clo g (F_std g) S).
  Proof using H. intros HS p d k Hk. exact (proj1 (pw_clo S HS p d k Hk)). Qed.
  Lemma init_good : good g init_set.
  Proof using H. intros p d k (-> & -> & ->). split; [constructor|]. exists SEof. split; [left; reflexivity|apply (pt_eof _ _ _ _ _ _ H)]. Qed.
  Lemma move_good S x : good g S -> good g (move g S x).
  Proof. intros HS p d k (d' & -> & Hk & _). exact (HS _ _ _ Hk). Qed.
  Lemma state_good I : lr_state g (F_std g) I -> good g I.
  Proof using H. induction 1; apply clo_good; auto using init_good, move_good. Qed.
  Lemma lalr_good I : good g (lalr_of g (F_std g) I).
  Proof using H. intros p d k (I' & HI' & _ & Hk). exact (state_good I' HI' _ _ _ Hk). Qed.
End Forward.

Lemma good_ext g I J : set_eq I J -> good g I -> good g J.
Proof. intros E HI p d k Hk. apply (HI p d k), E, Hk. Qed.

(** Both directions. *)
Section Both.
  Variables (g g' : grammar) (P P' K K' : nat -> nat).
  Hypothesis H : part g g' P P' K K'.
  Let H' : part g' g P' P K' K := part_sym _ _ _ _ _ _ H.
  Let Pl := bij_l _ _ (pt_P _ _ _ _ _ _ H).
  Let Pr := bij_r _ _ (pt_P _ _ _ _ _ _ H).
  Let Kl := bij_l _ _ (pt_K _ _ _ _ _ _ H).
  Let Kr := bij_r _ _ (pt_K _ _ _ _ _ _ H).
  Local Notation im' := (im P' K').
  Local Notation F := (F_std g).
  Local Notation F' := (F_std g').

  Lemma im_good I : good g I -> good g' (im' I).
  Proof using H.
    intros HI p d k Hk. destruct (HI _ _ _ Hk) as [H1 H2]. apply (pw_reachable _ _ _ _ _ _ H) in H1. apply (pw_utok _ _ _ _ _ _ H) in H2.
    rewrite Pr in H1. rewrite Kr in H2. auto.
  Qed.
  Lemma pim_im I : set_eq (im P K (im P' K' I)) I.
  Proof using Pl Kl. intros p d k. unfold im. rewrite Pl, Kl. reflexivity. Qed.

  Lemma pim_clo S : good g S -> set_eq (clo g' F' (im' S)) (im' (clo g F S)).
  Proof using H.
    intros HS p d k. split.
    - intros Hc. pose proof (proj2 (pw_clo _ _ _ _ _ _ H' _ (im_good S HS) _ _ _ Hc)) as Hc'. unfold im at 1. eapply clo_ext; [|exact Hc'].
      intros p0 d0 k0. apply set_eq_sym, pim_im.
    - unfold im at 1. intros Hc. pose proof (proj2 (pw_clo _ _ _ _ _ _ H _ HS _ _ _ Hc)) as Hc'. rewrite Pr, Kr in Hc'. exact Hc'.
  Qed.
  Lemma psym_at_iff p d x : reachable g p -> sym_at g' (P p) d x <-> sym_at g p d x.
  Proof using H.
    intros Hr. split; [|apply (pw_sym_at _ _ _ _ _ _ H), Hr]. intros E. apply (pw_sym_at _ _ _ _ _ _ H') in E; [|apply (pw_reachable _ _ _ _ _ _ H), Hr].
    rewrite Pl in E. exact E.
  Qed.
  Lemma pim_move S x : good g S -> set_eq (move g' (im' S) x) (im' (move g S x)).
  Proof using H.
    intros HS p d k. unfold im at 2. rewrite <- (Pr p) at 1. rewrite <- (Kr k) at 1. unfold move, im. split.
    - intros (d' & -> & Hk & Hx). exists d'. rewrite Pl, Kl in Hk. apply psym_at_iff in Hx; [auto|]. exact (proj1 (HS _ _ _ Hk)).
    - intros (d' & -> & Hk & Hx). exists d'. rewrite Pl, Kl. split; auto. split; auto. apply psym_at_iff; auto. exact (proj1 (HS _ _ _ Hk)).
  Qed.
  Lemma pim_init : set_eq init_set (im' init_set).
  Proof using H.
    intros p d k. unfold im, init_set. pose proof (pt_P0 _ _ _ _ _ _ H) as E0. pose proof (pt_K0 _ _ _ _ _ _ H) as E1. split.
    - intros (-> & -> & ->). rewrite (pt_P0 _ _ _ _ _ _ H'), (pt_K0 _ _ _ _ _ _ H'). auto.
    - intros (E2 & -> & E3). rewrite <- (Pr p), <- (Kr k), E2, E3. auto.
  Qed.
  Lemma pim_goto S S' x : good g S -> set_eq S' (im' S) -> set_eq (clo g' F' (move g' S' x)) (im' (clo g F (move g S x))).
  Proof using H.
    intros HS E p d k. rewrite (clo_ext g' F' (move g' S' x) (im' (move g S x))).
    - apply pim_clo, move_good, HS.
    - intros q e j. rewrite (move_ext g' _ _ x E q e j). apply pim_move, HS.
  Qed.
  Lemma pim_state I : lr_state g F I -> exists J, lr_state g' F' J /\ set_eq J (im' I).
  Proof using H.
    induction 1 as [|I x HI (J & HJ & E) (p & d & k & Hm)].
    - exists (clo g' F' init_set). split; [constructor|]. intros p d k. rewrite (clo_ext _ _ _ _ pim_init p d k).
      apply pim_clo, (init_good _ _ _ _ _ _ H).
    - pose proof (state_good _ _ _ _ _ _ H I HI) as HG.
      exists (clo g' F' (move g' J x)). split; [|apply pim_goto; auto].
      apply lr_goto; auto. exists (P p), d, (K k). apply (move_ext g' _ _ x E). apply pim_move; auto. unfold im. rewrite Pl, Kl. exact Hm.
  Qed.
  Lemma pim_core I J : same_core (im' I) (im' J) <-> same_core I J.
  Proof using H.
    assert (G : forall S p d, (exists k, im' S p d k) <-> exists k, S (P' p) d k).
    { intros S p d. unfold im. split; [intros [k Hk]; eauto|]. intros [k Hk]. exists (K k). rewrite Kl. exact Hk. }
    unfold same_core. split.
    - intros E p d. specialize (E (P p) d). rewrite !G, !Pl in E. exact E.
    - intros E p d. rewrite !G. apply E.
  Qed.
End Both.

Section Merged.
  Variables (g g' : grammar) (P P' K K' : nat -> nat).
  Hypothesis H : part g g' P P' K K'.
  Let H' : part g' g P' P K' K := part_sym _ _ _ _ _ _ H.
  Let Pl := bij_l _ _ (pt_P _ _ _ _ _ _ H).
  Let Pr := bij_r _ _ (pt_P _ _ _ _ _ _ H).
  Let Kl := bij_l _ _ (pt_K _ _ _ _ _ _ H).
  Let Kr := bij_r _ _ (pt_K _ _ _ _ _ _ H).
  Local Notation im' := (im P' K').
  Local Notation F := (F_std g).
  Local Notation F' := (F_std g').

  Lemma pim_state_back J : lr_state g' F' J -> exists I, lr_state g F I /\ set_eq J (im' I).
  Proof using H.
    intros HJ. destruct (pim_state _ _ _ _ _ _ H' J HJ) as (I & HI & E). exists I. split; auto.
    intros p d k. unfold im. rewrite (E (P' p) d (K' k)). unfold im. rewrite Pr, Kr. reflexivity.
  Qed.
  Lemma pim_lalr I J : set_eq J (im' I) -> set_eq (lalr_of g' F' J) (im' (lalr_of g F I)).
  Proof using H.
    intros E p d k. unfold im at 1, lalr_of. split.
    - intros (J' & HJ' & Hc & Hk). destruct (pim_state_back J' HJ') as (I' & HI' & E'). exists I'. split; auto. split.
      + apply (pim_core _ _ _ _ _ _ H). apply (same_core_eq _ _ _ E). apply (same_core_eq_r _ _ _ E'). exact Hc.
      + apply E' in Hk. exact Hk.
    - intros (I' & HI' & Hc & Hk). destruct (pim_state _ _ _ _ _ _ H I' HI') as (J' & HJ' & E'). exists J'. split; auto. split.
      + apply (same_core_eq _ _ _ E). apply (same_core_eq_r _ _ _ E'). apply (pim_core _ _ _ _ _ _ H). exact Hc.
      + apply E'. exact Hk.
  Qed.
  Lemma pw_found S S' x : good g S -> set_eq S' (im' S) -> found g F S x -> found g' F' S' x.
  Proof using H.
    intros HS E (I & HI & Hc). destruct (pim_state _ _ _ _ _ _ H I HI) as (J & HJ & EJ). exists J. split; auto.
    pose proof (pim_goto _ _ _ _ _ _ H S S' x HS E) as Eg. destruct Hc as [Hc|Hc]; [left|right].
    - intros p d k. rewrite (Eg p d k), (EJ p d k). apply Hc.
    - intros p d k. rewrite (Eg p d k), (pim_lalr I J EJ p d k). apply Hc.
  Qed.
  Lemma pw_wants S S' p d k : good g S -> set_eq S' (im' S) -> wants g F S p d k -> wants g' F' S' (P p) d (K k).
  Proof using H.
    intros HS E. assert (G : forall k, S p d k -> S' (P p) d (K k)).
    { intros k0 Hk. apply E. unfold im. rewrite Pl, Kl. exact Hk. }
    intros [[Hc Hk]|(x & Hx & Ht & Htk & [k' Hk'] & Hf)].
    - left. split; [apply (pw_complete _ _ _ _ _ _ H); auto; exact (proj1 (HS _ _ _ Hk))|auto].
    - pose proof (proj1 (HS _ _ _ Hk')) as Hr. right. exists x. split; [apply (pw_sym_at _ _ _ _ _ _ H); auto|]. split; auto.
      split; [apply (pt_tok _ _ _ _ _ _ H); auto; eapply used_at; eauto|]. split; [eauto|]. eapply pw_found; eauto.
  Qed.
End Merged.

Lemma state_item g I : lr_state g (F_std g) I -> exists p d k, I p d k.
Proof.
  destruct 1 as [|I x _ (p & d & k & Hm)]; [exists 0, 0, 0|exists p, d, k]; apply clo_base; auto. repeat split.
Qed.

(** ** Tables *)
Section Tables.
  Variables (g g' : grammar) (P P' K K' : nat -> nat).
  Hypothesis H : part g g' P P' K K'.
  Let H' : part g' g P' P K' K := part_sym _ _ _ _ _ _ H.
  Let Pl := bij_l _ _ (pt_P _ _ _ _ _ _ H).
  Let Pr := bij_r _ _ (pt_P _ _ _ _ _ _ H).
  Let Kl := bij_l _ _ (pt_K _ _ _ _ _ _ H).
  Let Kr := bij_r _ _ (pt_K _ _ _ _ _ _ H).
  Local Notation im' := (im P' K').
  Variables (start start' : str).
  Hypothesis W : wf_grammar g start.
  Hypothesis W' : wf_grammar g' start'.
  Hypothesis He : eps_free g.
  Hypothesis He' : eps_free g'.

  (** The collection of one exists when that of the other does. *)
  Lemma part_computable : computable g -> computable g'.
  Proof using H.
    intros HC p pr d B Hr Hp Hd.
    pose proof (pw_reachable _ _ _ _ _ _ H' _ Hr) as Hr'.
    destruct (pt_prod _ _ _ _ _ _ H' p pr Hr Hp) as (q & Hq & _ & Es).
    assert (Hd' : nth_error (p_syms q) d = Some (SNon B)) by (rewrite Es; exact Hd).
    assert (U : forall e x, nth_error (p_syms q) e = Some x -> used g x).
    { intros e x Hx. apply (used_at g (P' p) e x Hr'). exists q. auto. }
    destruct (HC _ _ _ _ Hr' Hq Hd') as [H1 H2]. split.
    - apply (pw_has_rule _ _ _ _ _ _ H); eauto.
    - intros x Hx A Hl. rewrite <- Es in Hx. pose proof (pw_used _ _ _ _ _ _ H _ (U _ _ Hx)) as Ux.
      destruct (pw_lms _ _ _ _ _ _ H' _ _ Hl Ux) as [Hl' UA].
      destruct (H2 _ Hx A Hl') as [H3 H4]. split.
      + apply (pw_has_rule _ _ _ _ _ _ H); auto. apply (pw_used _ _ _ _ _ _ H'), UA.
      + intros C. apply H4. exact (pw_left _ _ _ _ _ _ H' _ UA C).
  Qed.
  Lemma part_items lr0 : items g = Ok lr0 -> exists lr0', items g' = Ok lr0'.
  Proof using H W W' He He'.
    intros E. apply (items_ok_iff g' start' W' He'). apply part_computable. apply (items_ok_iff g start W He). eauto.
  Qed.

  (** One token is not wanted twice in a state of the one if it is not in the other. *)
  Lemma part_one_each :
    (forall I, lr_state g (F_std g) I -> forall p d p' d' k, wants g (F_std g) (lalr_of g (F_std g) I) p d k ->
       wants g (F_std g) (lalr_of g (F_std g) I) p' d' k -> (p, d) = (p', d')) ->
    (forall J, lr_state g' (F_std g') J -> forall p d p' d' k, wants g' (F_std g') (lalr_of g' (F_std g') J) p d k ->
       wants g' (F_std g') (lalr_of g' (F_std g') J) p' d' k -> (p, d) = (p', d')).
  Proof using H.
    intros HO J HJ p d p' d' k H1 H2. destruct (pim_state _ _ _ _ _ _ H' J HJ) as (I & HI & E).
    pose proof (pim_lalr _ _ _ _ _ _ H' J I E) as El. pose proof (lalr_good _ _ _ _ _ _ H' J) as HG.
    apply (pw_wants _ _ _ _ _ _ H' _ _ _ _ _ HG El) in H1, H2.
    pose proof (HO I HI _ _ _ _ _ H1 H2) as Eq. injection Eq as E1 E2. apply (f_equal P) in E1. rewrite !Pr in E1. congruence.
  Qed.

  Variables (hash hash' : list item -> N) (t t' : tables) (lr0 lr0' : list item_set) (m m' : list (nat * nat)).
  Hypothesis B : built hash g t lr0 m.
  Hypothesis B' : built hash' g' t' lr0' m'.
  Local Notation srel := (srel P' K' t t').
  Local Notation arel := (arel P P' K' t t').

  Lemma has_good i s : nth_error (t_states t) i = Some s -> good g (has s).
  Proof using H W He B.
    intros Hs. destruct (lalr_std_in g start W He lr0 _ m (b_items _ _ _ _ _ B) (b_merged _ _ _ _ _ B) i s Hs) as (I & HI & E & _).
    eapply good_ext; [|apply (lalr_good _ _ _ _ _ _ H I)]. intros p d k. symmetry. apply E.
  Qed.

  Lemma psrel_total i s : nth_error (t_states t) i = Some s -> exists i', srel i i'.
  Proof using H W W' He He' B B'.
    intros Hs. destruct (lalr_std_in g start W He lr0 _ m (b_items _ _ _ _ _ B) (b_merged _ _ _ _ _ B) i s Hs) as (I & HI & E & _).
    destruct (pim_state _ _ _ _ _ _ H I HI) as (J & HJ & EJ).
    destruct (lalr_std_all g' start' W' He' lr0' _ m' (b_items _ _ _ _ _ B') (b_merged _ _ _ _ _ B') J HJ) as (i' & s' & Hs' & E' & _).
    exists i', s, s'. split; auto. split; auto. intros p d k. rewrite (E' p d k).
    rewrite (pim_lalr _ _ _ _ _ _ H I J EJ p d k). unfold im. symmetry. apply E.
  Qed.

  Lemma psrel_target i i' s s' x j : nth_error (t_states t) i = Some s -> nth_error (t_states t') i' = Some s' ->
    set_eq (has s') (im' (has s)) -> target g lr0 (t_states t) s x j ->
    exists j', target g' lr0' (t_states t') s' x j' /\ srel j j'.
  Proof using H W W' He He' B B'.
    intros Hs Hs' E Ht. assert (Hin : In s (t_states t)) by eauto using nth_error_In. assert (Hin' : In s' (t_states t')) by eauto using nth_error_In.
    pose proof (has_good i s Hs) as HG.
    assert (Hf : found g' (F_std g') (has s') x).
    { apply (pw_found _ _ _ _ _ _ H (has s)); auto.
      apply (target_found g start W He lr0 _ m (b_items _ _ _ _ _ B) (b_merged _ _ _ _ _ B) s x Hin). eauto. }
    apply (target_found g' start' W' He' lr0' _ m' (b_items _ _ _ _ _ B') (b_merged _ _ _ _ _ B') s' x Hin') in Hf as [j' Ht'].
    exists j'. split; auto.
    destruct (target_core g start W He lr0 _ m (b_items _ _ _ _ _ B) (b_merged _ _ _ _ _ B) s x j Hin Ht) as (u & Hu & Hc & _).
    destruct (target_core g' start' W' He' lr0' _ m' (b_items _ _ _ _ _ B') (b_merged _ _ _ _ _ B') s' _ j' Hin' Ht') as (u' & Hu' & Hc' & _).
    destruct (psrel_total j u Hu) as (j1 & u1 & u1' & Hu1 & Hu1' & E1). rewrite Hu in Hu1. injection Hu1 as <-.
    assert (j1 = j') as <-; [|exists u, u1'; auto].
    apply (core_state g' start' W' He' hash' t' lr0' m' B' j1 j' u1' u' Hu1' Hu').
    assert (Hcc : same_core (im' (clo g (F_std g) (move g (has s) x))) (im' (has u))) by (apply (pim_core _ _ _ _ _ _ H); exact Hc).
    apply (same_core_eq _ _ _ (pim_goto _ _ _ _ _ _ H _ _ x HG E)) in Hc'.
    apply (same_core_eq _ _ _ E1). intros p d. rewrite <- (Hcc p d). apply Hc'.
  Qed.

  Lemma pP_zero p : (P p =? 0) = (p =? 0).
  Proof using H.
    pose proof (pt_P0 _ _ _ _ _ _ H) as E. destruct (Nat.eqb_spec p 0) as [->|Hn]; [rewrite E; reflexivity|].
    apply Nat.eqb_neq. intros C. apply Hn. rewrite <- (Pl p), C. rewrite <- E at 1. apply Pl.
  Qed.
  Lemma pK_zero k : (K k =? 0) = (k =? 0).
  Proof using H.
    pose proof (pt_K0 _ _ _ _ _ _ H) as E. destruct (Nat.eqb_spec k 0) as [->|Hn]; [rewrite E; reflexivity|].
    apply Nat.eqb_neq. intros C. apply Hn. rewrite <- (Kl k), C. rewrite <- E at 1. apply Kl.
  Qed.

  Lemma pw_action i i' k a : srel i i' -> tbl_get (t_action t) i k = Some a ->
    exists a', tbl_get (t_action t') i' (K k) = Some a' /\ arel a a'.
  Proof using H W W' He He' B B'.
    intros (s & s' & Hs & Hs' & E) Ha. apply (b_action _ _ _ _ _ B) in Ha as (s1 & p & d & Hs1 & Hput).
    rewrite Hs in Hs1. injection Hs1 as <-. pose proof (has_good i s Hs) as HG.
    assert (G : forall k, has s p d k -> has s' (P p) d (K k)).
    { intros k0 Hk. apply E. unfold im. rewrite Pl, Kl. exact Hk. }
    destruct Hput as [(Hc & Hk & ->)|(x & j & Hx & Ht & Htk & [k' Hk'] & Htg & ->)].
    - exists (if (K k =? 0) && (P p =? 0) then Accept else Reduce (P p)). split.
      + apply (b_action _ _ _ _ _ B'). exists s', (P p), d. split; auto. left.
        split; [apply (pw_complete _ _ _ _ _ _ H); auto; exact (proj1 (HG _ _ _ Hk))|auto].
      + rewrite pP_zero, pK_zero. destruct ((k =? 0) && (p =? 0)); simpl; auto.
    - destruct (psrel_target i i' s s' x j Hs Hs' E Htg) as (j' & Htg' & Hj). exists (Shift j'). split; [|exact Hj].
      pose proof (proj1 (HG _ _ _ Hk')) as Hr.
      apply (b_action _ _ _ _ _ B'). exists s', (P p), d. split; auto. right. exists x, j'.
      split; [apply (pw_sym_at _ _ _ _ _ _ H); auto|]. split; auto.
      split; [apply (pt_tok _ _ _ _ _ _ H); auto; eapply used_at; eauto|]. split; [eauto|]. auto.
  Qed.

  (** An entry for a non-terminal is only there when an item has it after the dot. *)
  Lemma goto_used i A j : tbl_get (t_goto t) i A = Some j -> used g (SNon A).
  Proof using H W He B.
    intros Ha. apply (b_goto _ _ _ _ _ B) in Ha as (s & Hs & _ & Htg). pose proof (has_good i s Hs) as HG.
    destruct (target_found g start W He lr0 _ m (b_items _ _ _ _ _ B) (b_merged _ _ _ _ _ B) s (SNon A) (nth_error_In _ _ Hs)) as [Hf _].
    destruct (Hf (ex_intro _ j Htg)) as (I & HI & Hc).
    assert (Hne : exists p d k, clo g (F_std g) (move g (has s) (SNon A)) p d k).
    { destruct (state_item g I HI) as (p & d & k & Hk). exists p, d, k. destruct Hc as [Hc|Hc]; apply Hc; auto.
      exists I. split; auto. split; auto. intros p0 d0. reflexivity. }
    destruct Hne as (p & d & k & Hk).
    assert (Hm : exists p d k, move g (has s) (SNon A) p d k) by (clear - Hk; induction Hk; eauto).
    destruct Hm as (p1 & d1 & k1 & d' & -> & Hk1 & Hx). apply (used_at g p1 d'); auto. exact (proj1 (HG _ _ _ Hk1)).
  Qed.
  Lemma pw_goto i i' A j : srel i i' -> tbl_get (t_goto t) i A = Some j ->
    exists j', tbl_get (t_goto t') i' A = Some j' /\ srel j j'.
  Proof using H W W' He He' B B'.
    intros Hi Ha. pose proof (goto_used _ _ _ Ha) as Hu. destruct Hi as (s & s' & Hs & Hs' & E). apply (b_goto _ _ _ _ _ B) in Ha as (s1 & Hs1 & HA & Htg).
    rewrite Hs in Hs1. injection Hs1 as <-.
    destruct (psrel_target i i' s s' _ j Hs Hs' E Htg) as (j' & Htg' & Hj). exists j'. split; [|exact Hj].
    apply (b_goto _ _ _ _ _ B'). exists s'. split; auto. split; [|exact Htg'].
    apply (pw_used _ _ _ _ _ _ H) in Hu as [C|(p & pr & _ & Hp & Hx)]; [discriminate|].
    destruct (wg_tokens _ _ W') as (l & -> & _ & Hl). right. apply Hl. exists pr. eauto using nth_error_In.
  Qed.
End Tables.
