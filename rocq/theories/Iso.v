(** Grammars that differ only in the order of their rules and alternatives and in the names of
    their non-terminals: everything the code computes is the same up to renumbering.
    Here the correspondence of the automata and of the tables. *)
From Coq Require Import Permutation.
From Verif Require Import Base IsoSpec Grammar GrammarSpec GrammarProofs First FirstProofs Item ItemSpec ItemProofs ItemPlain Table
  MergeProofs TableSpec TableProofs TableFacts.

(** ** Bijections *)
Record bij {A B} (f : A -> B) (f' : B -> A) : Prop := { bij_l : forall a, f' (f a) = a; bij_r : forall b, f (f' b) = b }.
Lemma bij_sym {A B} (f : A -> B) f' : bij f f' -> bij f' f.
Proof. intros [H1 H2]. split; auto. Qed.

(** A permutation of a list is a bijection of the positions. *)
Lemma perm_bij {A} (l l' : list A) : Permutation l l' ->
  exists f f', bij f f' /\ forall n, nth_error l' (f n) = nth_error l n.
Proof.
  induction 1 as [|x l l' _ (f & f' & [H1 H2] & H)|x y l|l l' l'' _ (f & f' & [H1 H2] & H) _ (h & h' & [G1 G2] & G)].
  - exists (fun n => n), (fun n => n). split; [split; auto|auto].
  - exists (fun n => match n with O => O | S m => S (f m) end), (fun n => match n with O => O | S m => S (f' m) end).
    split; [split; intros [|n]; auto|]. intros [|n]; simpl; auto.
  - set (sw := fun n => match n with O => 1 | 1 => O | m => m end).
    exists sw, sw. split; [split; intros [|[|n]]; reflexivity|]. intros [|[|n]]; reflexivity.
  - exists (fun n => h (f n)), (fun n => f' (h' n)). split; [split; intros n; congruence|]. intros n. rewrite G. apply H.
Qed.

(** An injective renaming of finitely many names extends to a bijection. *)
Definition swap {A} `{Ord A} (a b x : A) : A := if eqb x a then b else if eqb x b then a else x.
Lemma swap_bij {A} `{Ord A} (a b : A) : bij (swap a b) (swap a b).
Proof.
  assert (G : forall x, swap a b (swap a b x) = x); [|split; exact G].
  intros x. unfold swap at 2. destruct (eqb x a) eqn:E1.
  - apply eqb_eq in E1 as ->. unfold swap. destruct (eqb b a) eqn:E2; [apply eqb_eq in E2; exact E2|]. rewrite eqb_refl. reflexivity.
  - destruct (eqb x b) eqn:E2.
    + apply eqb_eq in E2 as ->. unfold swap. rewrite eqb_refl. reflexivity.
    + unfold swap. rewrite E1, E2. reflexivity.
Qed.
Lemma swap_class {A C} `{Ord A} (c : A -> C) (a b x : A) : c a = c b -> c (swap a b x) = c x.
Proof.
  intros E. unfold swap. destruct (eqb x a) eqn:E1; [apply eqb_eq in E1 as ->; auto|].
  destruct (eqb x b) eqn:E2; [apply eqb_eq in E2 as ->; auto|reflexivity].
Qed.
Lemma extend_bij_class {A C} `{Ord A} (c : A -> C) (r : A -> A) (l : list A) :
  (forall a b, In a l -> In b l -> r a = r b -> a = b) -> (forall a, In a l -> c (r a) = c a) ->
  exists f f', bij f f' /\ (forall a, In a l -> f a = r a) /\ forall a, c (f a) = c a.
Proof.
  induction l as [|x l IH]; intros Hi Hc.
  - exists (fun a => a), (fun a => a). split; [split; auto|split; [intros a []|auto]].
  - destruct IH as (f & f' & [H1 H2] & Hf & Hfc); [intros; apply Hi; simpl; auto|intros; apply Hc; simpl; auto|].
    pose proof (swap_bij (f x) (r x)) as [S1 _].
    exists (fun a => swap (f x) (r x) (f a)), (fun b => f' (swap (f x) (r x) b)).
    split; [split; intros; rewrite ?S1, ?H1, ?H2, ?S1; auto|]. split.
    2:{ intros a. rewrite swap_class; auto. rewrite Hfc. symmetry. apply Hc. left; reflexivity. }
    intros a Ha. destruct (ord_dec a x) as [->|Hne].
    + unfold swap. rewrite eqb_refl. reflexivity.
    + destruct Ha as [->|Ha]; [congruence|]. rewrite (Hf a Ha). unfold swap.
      assert (E1 : eqb (r a) (f x) = false).
      { apply eqb_neq. intros E. rewrite <- (Hf a Ha) in E. apply Hne. rewrite <- (H1 a), <- (H1 x). congruence. }
      assert (E2 : eqb (r a) (r x) = false).
      { apply eqb_neq. intros E. apply Hne. apply Hi; simpl; auto. }
      rewrite E1, E2. reflexivity.
Qed.

Lemma extend_bij {A} `{Ord A} (r : A -> A) (l : list A) :
  (forall a b, In a l -> In b l -> r a = r b -> a = b) -> exists f f', bij f f' /\ forall a, In a l -> f a = r a.
Proof. intros Hi. destruct (extend_bij_class (fun _ => tt) r l Hi (fun _ _ => eq_refl)) as (f & f' & H1 & H2 & _). eauto. Qed.

(** Maps of symbols: the name a non-terminal gets, and the image of a rule. *)
Lemma rn_rsym r n : rn (rsym r) n = r n.
Proof. reflexivity. Qed.
Lemma rrule_xrule r e : xrule (rsym r) e = rrule r e.
Proof. reflexivity. Qed.
Lemma rsym_bij r r' : bij r r' -> bij (rsym r) (rsym r').
Proof. intros [H1 H2]. split; intros [| | | |]; simpl; congruence. Qed.
Lemma rsym_terminal r x : terminal x -> rsym r x = x.
Proof. intros H. destruct x; auto. exfalso. eapply H. reflexivity. Qed.
Lemma map_bij {A B} (f : A -> B) f' : bij f f' -> bij (map f) (map f').
Proof. intros [H1 H2]. split; intros l; rewrite map_map; rewrite <- (map_id l) at 2; apply map_ext; auto. Qed.

(** A map of symbols that respects what they are. *)
Lemma kind_non X x : sym_kind (X x) = sym_kind x -> (exists n, x = SNon n) -> exists n, X x = SNon n.
Proof. intros H [n ->]. destruct (X (SNon n)); try discriminate. eauto. Qed.
Lemma rn_ok X n : sym_kind (X (SNon n)) = sym_kind (SNon n) -> X (SNon n) = SNon (rn X n).
Proof. unfold rn. destruct (X (SNon n)); try discriminate. reflexivity. Qed.
Lemma kind_terminal x y : sym_kind x = sym_kind y -> terminal x -> terminal y.
Proof. intros E H n ->. destruct x; try discriminate. eapply H. reflexivity. Qed.
Lemma kind_back X X' : bij X X' -> (forall x, sym_kind (X x) = sym_kind x) -> forall x, sym_kind (X' x) = sym_kind x.
Proof. intros [_ H] Hk x. rewrite <- (H x) at 2. rewrite Hk. reflexivity. Qed.

(** ** Corresponding grammars *)
Definition shape (p : production) : str * list sym := (p_name p, p_syms p).
Record iso (g g' : grammar) (X X' : sym -> sym) (P P' K K' : nat -> nat) : Prop := {
  is_X : bij X X'; is_kind : forall x, sym_kind (X x) = sym_kind x;
  is_P : bij P P'; is_K : bij K K'; is_P0 : P 0 = 0; is_K0 : K 0 = 0;
  is_prod : forall p, nth_error (map shape (g_prods g')) (P p) = option_map (xrule X) (nth_error (map shape (g_prods g)) p);
  is_tokn : forall k, nth_error (g_tokens g') (K k) = option_map X (nth_error (g_tokens g) k);
  is_tok : forall k x, tok g k x -> tok g' (K k) (X x);
  is_tok' : forall k x, tok g' k x -> tok g (K' k) (X' x) }.

Lemma rn_back X X' n : bij X X' -> (forall x, sym_kind (X x) = sym_kind x) -> rn X' (rn X n) = n.
Proof.
  intros Hb Hk. unfold rn at 1. rewrite <- (rn_ok X n (Hk _)), (bij_l _ _ Hb). reflexivity.
Qed.

Lemma iso_sym g g' X X' P P' K K' : iso g g' X X' P P' K K' -> iso g' g X' X P' P K' K.
Proof.
  intros [Hr Hk HP HK H0 H1 H2 H3 H4 H5]. constructor; auto using bij_sym.
  - exact (kind_back _ _ Hr Hk).
  - rewrite <- H0 at 1. apply HP.
  - rewrite <- H1 at 1. apply HK.
  - intros p. specialize (H2 (P' p)). rewrite (bij_r _ _ HP) in H2. rewrite H2.
    destruct (nth_error (map shape (g_prods g)) (P' p)) as [[n b]|]; simpl; auto. unfold xrule. simpl.
    rewrite (rn_back X X' n Hr Hk), (bij_l _ _ (map_bij _ _ Hr)). reflexivity.
  - intros k. specialize (H3 (K' k)). rewrite (bij_r _ _ HK) in H3. rewrite H3.
    destruct (nth_error (g_tokens g) (K' k)) as [x|]; simpl; auto. rewrite (bij_l _ _ Hr). reflexivity.
Qed.

(** The image of a set of items. *)
Definition im (P' K' : nat -> nat) (I : lrset) : lrset := fun p d k => I (P' p) d (K' k).

(** One direction; the other follows by symmetry. *)
Section Forward.
  Variables (g g' : grammar) (X X' : sym -> sym) (P P' K K' : nat -> nat).
  Hypothesis H : iso g g' X X' P P' K K'.

  Lemma fw_non n : X (SNon n) = SNon (rn X n).
  Proof using H. apply rn_ok, (is_kind _ _ _ _ _ _ _ _ H). Qed.
  Lemma fw_prod p pr : nth_error (g_prods g) p = Some pr ->
    exists pr', nth_error (g_prods g') (P p) = Some pr' /\ p_name pr' = rn X (p_name pr) /\ p_syms pr' = map X (p_syms pr).
  Proof using H.
    intros E. pose proof (is_prod _ _ _ _ _ _ _ _ H p) as G. rewrite (map_nth_error shape _ _ E) in G. simpl in G.
    rewrite nth_error_map in G. destruct (nth_error (g_prods g') (P p)) as [pr'|]; [|discriminate].
    simpl in G. injection G as G1 G2. eauto.
  Qed.
  Lemma fw_none p : nth_error (g_prods g) p = None -> nth_error (g_prods g') (P p) = None.
  Proof using H.
    intros E. pose proof (is_prod _ _ _ _ _ _ _ _ H p) as G. rewrite !nth_error_map, E in G.
    destruct (nth_error (g_prods g') (P p)); [discriminate|reflexivity].
  Qed.
  Lemma fw_rule A b : rule g A b -> rule g' (rn X A) (map X b).
  Proof using H.
    intros (p & Hp & <- & <-). apply In_nth_error in Hp as [i Hi]. destruct (fw_prod i p Hi) as (pr' & E & H1 & H2).
    exists pr'. eauto using nth_error_In.
  Qed.
  Lemma fw_has_rule A : has_rule g A -> has_rule g' (rn X A).
  Proof using H. intros (q & Hq & E). destruct (fw_rule A (p_syms q)) as (p & Hp & En & _); [exists q; auto|]. exists p. auto. Qed.
  Lemma fw_derives1 u v : derives1 g u v -> derives1 g' (map X u) (map X v).
  Proof using H. intros [a A b c HR]. rewrite !map_app. cbn [map]. rewrite fw_non. constructor. apply fw_rule, HR. Qed.
  Lemma fw_derives u v : derives g u v -> derives g' (map X u) (map X v).
  Proof using H. induction 1; [constructor|]. econstructor; [apply fw_derives1; eassumption|assumption]. Qed.
  Lemma fw_first l y : F_std g l y -> F_std g' (map X l) (X y).
  Proof using H.
    intros (Ht & w & Hd). split; [exact (kind_terminal _ _ (eq_sym (is_kind _ _ _ _ _ _ _ _ H _)) Ht)|]. exists (map X w). apply fw_derives in Hd. exact Hd.
  Qed.
  Lemma fw_lms x y : lms g x y -> lms g' (X x) (X y).
  Proof using H. induction 1 as [|A y b z HR _ IH]; [constructor|]. rewrite fw_non. eapply lms_step; [|exact IH]. apply fw_rule in HR. exact HR. Qed.
  Lemma fw_left A : left_recursive g A -> left_recursive g' (rn X A).
  Proof using H.
    intros (b & c & H1 & H2). exists (map X b), (map X c). apply fw_derives1 in H1. apply fw_derives in H2. cbn [map] in H1, H2. rewrite fw_non in H1, H2. auto.
  Qed.
  Lemma fw_sym_at p d x : sym_at g p d x -> sym_at g' (P p) d (X x).
  Proof using H.
    intros (pr & Hp & Hx). destruct (fw_prod p pr Hp) as (pr' & E & _ & Es). exists pr'. split; auto.
    rewrite Es. apply map_nth_error, Hx.
  Qed.
  Lemma fw_complete p d : complete g p d -> complete g' (P p) d.
  Proof using H.
    intros (pr & Hp & ->). destruct (fw_prod p pr Hp) as (pr' & E & _ & Es). exists pr'. split; auto. rewrite Es, map_length. reflexivity.
  Qed.
  Lemma fw_rest p d : rest g' (P p) d = map X (rest g p d).
  Proof using H.
    unfold rest. destruct (nth_error (g_prods g) p) as [pr|] eqn:E.
    - destruct (fw_prod p pr E) as (pr' & E' & _ & Es). rewrite E', Es. apply skipn_map.
    - rewrite (fw_none p E). reflexivity.
  Qed.
  Lemma fw_tok k x : nth_error (g_tokens g) k = Some x -> nth_error (g_tokens g') (K k) = Some (X x).
  Proof using H. intros E. rewrite (is_tokn _ _ _ _ _ _ _ _ H k), E. reflexivity. Qed.

  Lemma fw_clo S p d k : clo g (F_std g) S p d k -> clo g' (F_std g') (im P' K' S) (P p) d (K k).
  Proof using H.
    induction 1 as [p d k Hk|p d k a q pq b k' _ IH Hx Hq Ha HF Ht].
    - apply clo_base. unfold im. rewrite (bij_l _ _ (is_P _ _ _ _ _ _ _ _ H)), (bij_l _ _ (is_K _ _ _ _ _ _ _ _ H)). exact Hk.
    - destruct (fw_prod q pq Hq) as (pq' & Eq & En & _).
      eapply clo_rule; [exact IH| |exact Eq|exact (fw_tok _ _ Ha)| |exact (is_tok _ _ _ _ _ _ _ _ H _ _ Ht)].
      + rewrite En, <- fw_non. apply fw_sym_at in Hx. exact Hx.
      + rewrite fw_rest. apply fw_first in HF. rewrite map_app in HF. exact HF.
  Qed.
  Lemma fw_move S x p d k : move g S x p d k -> move g' (im P' K' S) (X x) (P p) d (K k).
  Proof using H.
    intros (d' & -> & Hk & Hx). exists d'. split; auto. split; [|apply fw_sym_at, Hx].
    unfold im. rewrite (bij_l _ _ (is_P _ _ _ _ _ _ _ _ H)), (bij_l _ _ (is_K _ _ _ _ _ _ _ _ H)). exact Hk.
  Qed.
  Lemma fw_reachable p : reachable g p -> reachable g' (P p).
  Proof using H.
    induction 1 as [|p pr q pq _ IH Hp Hx Hq].
    - rewrite (is_P0 _ _ _ _ _ _ _ _ H). constructor.
    - destruct (fw_prod p pr Hp) as (pr' & E & _ & Es). destruct (fw_prod q pq Hq) as (pq' & Eq & En & _).
      eapply reach_next; eauto. rewrite Es, En, <- fw_non. apply (in_map X) in Hx. exact Hx.
  Qed.
  Lemma fw_eps_free : eps_free g -> forall p pr', nth_error (g_prods g') (P p) = Some pr' -> p_syms pr' <> [] /\ ~ In SEps (p_syms pr').
  Proof using H.
    intros He p pr' E. destruct (nth_error (g_prods g) p) as [pr|] eqn:Ep; [|rewrite (fw_none p Ep) in E; discriminate].
    destruct (fw_prod p pr Ep) as (pr1 & E1 & _ & Es). rewrite E in E1. injection E1 as <-. rewrite Es.
    destruct (He pr (nth_error_In _ _ Ep)) as [H1 H2]. split.
    - destruct (p_syms pr); [tauto|discriminate].
    - intros C. apply in_map_iff in C as (x & Ex & Hx). pose proof (is_kind _ _ _ _ _ _ _ _ H x) as Ek. rewrite Ex in Ek. destruct x; try discriminate. auto.
  Qed.
End Forward.

(** Both directions. *)
Section Both.
  Variables (g g' : grammar) (X X' : sym -> sym) (P P' K K' : nat -> nat).
  Hypothesis H : iso g g' X X' P P' K K'.
  Let H' : iso g' g X' X P' P K' K := iso_sym _ _ _ _ _ _ _ _ H.
  Let Pl := bij_l _ _ (is_P _ _ _ _ _ _ _ _ H).
  Let Pr := bij_r _ _ (is_P _ _ _ _ _ _ _ _ H).
  Let Kl := bij_l _ _ (is_K _ _ _ _ _ _ _ _ H).
  Let Kr := bij_r _ _ (is_K _ _ _ _ _ _ _ _ H).
  Let Xl := bij_l _ _ (is_X _ _ _ _ _ _ _ _ H).
  Let Xr := bij_r _ _ (is_X _ _ _ _ _ _ _ _ H).
  Local Notation im' := (im P' K').
  Local Notation F := (F_std g).
  Local Notation F' := (F_std g').

  Lemma im_im I : set_eq (im P K (im P' K' I)) I.
  Proof using Pl Kl. intros p d k. unfold im. rewrite Pl, Kl. reflexivity. Qed.
  Lemma im_im' I : set_eq (im P' K' (im P K I)) I.
  Proof using Pr Kr. intros p d k. unfold im. rewrite Pr, Kr. reflexivity. Qed.
  Lemma im_eq I J : set_eq I J <-> set_eq (im' I) (im' J).
  Proof using Pl Kl.
    split; intros E p d k; [apply E|]. specialize (E (P p) d (K k)). unfold im in E. rewrite Pl, Kl in E. exact E.
  Qed.

  Lemma im_clo S : set_eq (clo g' F' (im' S)) (im' (clo g F S)).
  Proof using H.
    intros p d k. split.
    - intros Hc. pose proof (fw_clo _ _ _ _ _ _ _ _ H' _ _ _ _ Hc) as Hc'. unfold im at 1. eapply clo_ext; [|exact Hc'].
      intros p0 d0 k0. apply set_eq_sym, im_im.
    - unfold im at 1. intros Hc. pose proof (fw_clo _ _ _ _ _ _ _ _ H _ _ _ _ Hc) as Hc'. rewrite Pr, Kr in Hc'. exact Hc'.
  Qed.
  Lemma sym_at_iff p d x : sym_at g' (P p) d (X x) <-> sym_at g p d x.
  Proof using H.
    split; [|apply (fw_sym_at _ _ _ _ _ _ _ _ H)]. intros E. apply (fw_sym_at _ _ _ _ _ _ _ _ H') in E. rewrite Pl, Xl in E. exact E.
  Qed.
  Lemma complete_iff p d : complete g' (P p) d <-> complete g p d.
  Proof using H.
    split; [|apply (fw_complete _ _ _ _ _ _ _ _ H)]. intros E. apply (fw_complete _ _ _ _ _ _ _ _ H') in E. rewrite Pl in E. exact E.
  Qed.
  Lemma tok_iff k x : tok g' (K k) (X x) <-> tok g k x.
  Proof using H.
    split; [|apply (is_tok _ _ _ _ _ _ _ _ H)]. intros E. apply (is_tok' _ _ _ _ _ _ _ _ H) in E. rewrite Kl, Xl in E. exact E.
  Qed.
  Lemma im_move S x : set_eq (move g' (im' S) (X x)) (im' (move g S x)).
  Proof using H.
    intros p d k. unfold im at 2. rewrite <- (Pr p) at 1. rewrite <- (Kr k) at 1. unfold move, im. split.
    - intros (d' & -> & Hk & Hx). exists d'. rewrite Pl, Kl in Hk. apply sym_at_iff in Hx. auto.
    - intros (d' & -> & Hk & Hx). exists d'. rewrite Pl, Kl. rewrite sym_at_iff. auto.
  Qed.
  Lemma im_init : set_eq init_set (im' init_set).
  Proof using H.
    intros p d k. unfold im, init_set. pose proof (is_P0 _ _ _ _ _ _ _ _ H) as E0. pose proof (is_K0 _ _ _ _ _ _ _ _ H) as E1. split.
    - intros (-> & -> & ->). rewrite (is_P0 _ _ _ _ _ _ _ _ H'), (is_K0 _ _ _ _ _ _ _ _ H'). auto.
    - intros (E2 & -> & E3). rewrite <- (Pr p), <- (Kr k), E2, E3. auto.
  Qed.
  Lemma im_state I : lr_state g F I -> exists J, lr_state g' F' J /\ set_eq J (im' I).
  Proof using H.
    induction 1 as [|I x _ (J & HJ & E) (p & d & k & Hm)].
    - exists (clo g' F' init_set). split; [constructor|]. intros p d k. rewrite (clo_ext _ _ _ _ im_init p d k). apply im_clo.
    - assert (Em : set_eq (move g' J (X x)) (im' (move g I x))).
      { intros q e j. rewrite (move_ext g' _ _ (X x) E q e j). apply im_move. }
      exists (clo g' F' (move g' J (X x))). split.
      + apply lr_goto; auto. exists (P p), d, (K k). apply Em. unfold im. rewrite Pl, Kl. exact Hm.
      + intros q e j. rewrite (clo_ext _ _ _ _ Em q e j). apply im_clo.
  Qed.
  Lemma im_core I J : same_core (im' I) (im' J) <-> same_core I J.
  Proof using H.
    assert (G : forall S p d, (exists k, im' S p d k) <-> exists k, S (P' p) d k).
    { intros S p d. unfold im. split; [intros [k Hk]; eauto|]. intros [k Hk]. exists (K k). rewrite Kl. exact Hk. }
    unfold same_core. split.
    - intros E p d. specialize (E (P p) d). rewrite !G, !Pl in E. exact E.
    - intros E p d. rewrite !G. apply E.
  Qed.
  Lemma complete_set_eq I J : set_eq I J -> same_core I J.
  Proof. intros E p d. split; intros [k Hk]; exists k; apply E, Hk. Qed.
End Both.

Section Merged.
  Variables (g g' : grammar) (X X' : sym -> sym) (P P' K K' : nat -> nat).
  Hypothesis H : iso g g' X X' P P' K K'.
  Let H' : iso g' g X' X P' P K' K := iso_sym _ _ _ _ _ _ _ _ H.
  Let Pl := bij_l _ _ (is_P _ _ _ _ _ _ _ _ H).
  Let Pr := bij_r _ _ (is_P _ _ _ _ _ _ _ _ H).
  Let Kl := bij_l _ _ (is_K _ _ _ _ _ _ _ _ H).
  Let Kr := bij_r _ _ (is_K _ _ _ _ _ _ _ _ H).
  Let Xl := bij_l _ _ (is_X _ _ _ _ _ _ _ _ H).
  Let Xr := bij_r _ _ (is_X _ _ _ _ _ _ _ _ H).
  Local Notation im' := (im P' K').
  Local Notation F := (F_std g).
  Local Notation F' := (F_std g').

  (** Back from a state of the other grammar. *)
  Lemma im_state_back J : lr_state g' F' J -> exists I, lr_state g F I /\ set_eq J (im' I).
  Proof using H.
    intros HJ. destruct (im_state _ _ _ _ _ _ _ _ H' J HJ) as (I & HI & E). exists I. split; auto.
    intros p d k. unfold im. rewrite (E (P' p) d (K' k)). unfold im. rewrite Pr, Kr. reflexivity.
  Qed.

  Lemma im_lalr I J : set_eq J (im' I) -> set_eq (lalr_of g' F' J) (im' (lalr_of g F I)).
  Proof using H.
    intros E p d k. unfold im at 1, lalr_of. split.
    - intros (J' & HJ' & Hc & Hk). destruct (im_state_back J' HJ') as (I' & HI' & E'). exists I'. split; auto. split.
      + apply (im_core _ _ _ _ _ _ _ _ H). apply (same_core_eq _ _ _ E). apply (same_core_eq_r _ _ _ E'). exact Hc.
      + apply E' in Hk. exact Hk.
    - intros (I' & HI' & Hc & Hk). destruct (im_state _ _ _ _ _ _ _ _ H I' HI') as (J' & HJ' & E'). exists J'. split; auto. split.
      + apply (same_core_eq _ _ _ E). apply (same_core_eq_r _ _ _ E'). apply (im_core _ _ _ _ _ _ _ _ H). exact Hc.
      + apply E'. exact Hk.
  Qed.

  Lemma im_goto S S' x : set_eq S' (im' S) -> set_eq (clo g' F' (move g' S' (X x))) (im' (clo g F (move g S x))).
  Proof using H.
    intros E p d k. rewrite (clo_ext g' F' (move g' S' (X x)) (im' (move g S x))).
    - apply (im_clo _ _ _ _ _ _ _ _ H).
    - intros q e j. rewrite (move_ext g' _ _ (X x) E q e j). apply (im_move _ _ _ _ _ _ _ _ H).
  Qed.

  Lemma fw_found S S' x : set_eq S' (im' S) -> found g F S x -> found g' F' S' (X x).
  Proof using H.
    intros E (I & HI & Hc). destruct (im_state _ _ _ _ _ _ _ _ H I HI) as (J & HJ & EJ). exists J. split; auto.
    pose proof (im_goto S S' x E) as Eg. destruct Hc as [Hc|Hc]; [left|right].
    - intros p d k. rewrite (Eg p d k), (EJ p d k). apply Hc.
    - intros p d k. rewrite (Eg p d k), (im_lalr I J EJ p d k). apply Hc.
  Qed.

  Lemma fw_wants S S' p d k : set_eq S' (im' S) -> wants g F S p d k -> wants g' F' S' (P p) d (K k).
  Proof using H.
    intros E. assert (G : forall k, S p d k -> S' (P p) d (K k)).
    { intros k0 Hk. apply E. unfold im. rewrite Pl, Kl. exact Hk. }
    intros [[Hc Hk]|(x & Hx & Ht & Htk & [k' Hk'] & Hf)].
    - left. split; [apply (fw_complete _ _ _ _ _ _ _ _ H), Hc|auto].
    - right. exists (X x). split; [apply (fw_sym_at _ _ _ _ _ _ _ _ H), Hx|]. split; [exact (kind_terminal _ _ (eq_sym (is_kind _ _ _ _ _ _ _ _ H _)) Ht)|].
      split; [apply (is_tok _ _ _ _ _ _ _ _ H), Htk|]. split; [eauto|]. eapply fw_found; eauto.
  Qed.
End Merged.

(** ** Tables *)
Section Tables.
  Variables (g g' : grammar) (X X' : sym -> sym) (P P' K K' : nat -> nat).
  Hypothesis H : iso g g' X X' P P' K K'.
  Let H' : iso g' g X' X P' P K' K := iso_sym _ _ _ _ _ _ _ _ H.
  Let Pl := bij_l _ _ (is_P _ _ _ _ _ _ _ _ H).
  Let Pr := bij_r _ _ (is_P _ _ _ _ _ _ _ _ H).
  Let Kl := bij_l _ _ (is_K _ _ _ _ _ _ _ _ H).
  Let Kr := bij_r _ _ (is_K _ _ _ _ _ _ _ _ H).
  Let Xl := bij_l _ _ (is_X _ _ _ _ _ _ _ _ H).
  Let Xr := bij_r _ _ (is_X _ _ _ _ _ _ _ _ H).
  Local Notation im' := (im P' K').
  Variables (start start' : str).
  Hypothesis W : wf_grammar g start.
  Hypothesis W' : wf_grammar g' start'.
  Hypothesis He : eps_free g.
  Hypothesis He' : eps_free g'.

  (** The collection of one exists when that of the other does. *)
  Lemma iso_computable : computable g -> computable g'.
  Proof using H.
    intros HC p pr d B Hr Hp Hd.
    pose proof (fw_reachable _ _ _ _ _ _ _ _ H' _ Hr) as Hr'.
    destruct (fw_prod _ _ _ _ _ _ _ _ H' p pr Hp) as (q & Hq & _ & Es).
    assert (Hd' : nth_error (p_syms q) d = Some (SNon (rn X' B))) by (rewrite Es, <- (fw_non _ _ _ _ _ _ _ _ H'); apply (map_nth_error X' _ _ Hd)).
    destruct (HC _ _ _ _ Hr' Hq Hd') as [H1 H2]. split.
    - apply (fw_has_rule _ _ _ _ _ _ _ _ H) in H1. rewrite (rn_back _ _ _ (is_X _ _ _ _ _ _ _ _ H') (is_kind _ _ _ _ _ _ _ _ H')) in H1. exact H1.
    - intros x Hx A Hl. assert (Hx' : nth_error (p_syms q) (S d) = Some (X' x)) by (rewrite Es; apply (map_nth_error X' _ _ Hx)).
      destruct (H2 _ Hx' (rn X' A)) as [H3 H4]; [apply (fw_lms _ _ _ _ _ _ _ _ H') in Hl; rewrite (fw_non _ _ _ _ _ _ _ _ H') in Hl; exact Hl|]. split.
      + apply (fw_has_rule _ _ _ _ _ _ _ _ H) in H3. rewrite (rn_back _ _ _ (is_X _ _ _ _ _ _ _ _ H') (is_kind _ _ _ _ _ _ _ _ H')) in H3. exact H3.
      + intros C. apply H4. exact (fw_left _ _ _ _ _ _ _ _ H' _ C).
  Qed.
  Lemma iso_items lr0 : items g = Ok lr0 -> exists lr0', items g' = Ok lr0'.
  Proof using H W W' He He'.
    intros E. apply (items_ok_iff g' start' W' He'). apply iso_computable. apply (items_ok_iff g start W He). eauto.
  Qed.

  (** One token is not wanted twice in a state of the one if it is not in the other. *)
  Lemma iso_one_each :
    (forall I, lr_state g (F_std g) I -> forall p d p' d' k, wants g (F_std g) (lalr_of g (F_std g) I) p d k ->
       wants g (F_std g) (lalr_of g (F_std g) I) p' d' k -> (p, d) = (p', d')) ->
    (forall J, lr_state g' (F_std g') J -> forall p d p' d' k, wants g' (F_std g') (lalr_of g' (F_std g') J) p d k ->
       wants g' (F_std g') (lalr_of g' (F_std g') J) p' d' k -> (p, d) = (p', d')).
  Proof using H.
    intros HO J HJ p d p' d' k H1 H2. destruct (im_state _ _ _ _ _ _ _ _ H' J HJ) as (I & HI & E).
    pose proof (im_lalr _ _ _ _ _ _ _ _ H' J I E) as El.
    apply (fw_wants _ _ _ _ _ _ _ _ H' _ _ _ _ _ El) in H1, H2.
    pose proof (HO I HI _ _ _ _ _ H1 H2) as Eq. injection Eq as E1 E2. apply (f_equal P) in E1. rewrite !Pr in E1. congruence.
  Qed.

  Variables (hash hash' : list item -> N) (t t' : tables) (lr0 lr0' : list item_set) (m m' : list (nat * nat)).
  Hypothesis B : built hash g t lr0 m.
  Hypothesis B' : built hash' g' t' lr0' m'.

  (** Corresponding states. *)
  Definition srel (i i' : nat) : Prop := exists s s', nth_error (t_states t) i = Some s /\ nth_error (t_states t') i' = Some s' /\
    set_eq (has s') (im' (has s)).

  Lemma srel_total i s : nth_error (t_states t) i = Some s -> exists i', srel i i'.
  Proof using H W W' He He' B B'.
    intros Hs. destruct (lalr_std_in g start W He lr0 _ m (b_items _ _ _ _ _ B) (b_merged _ _ _ _ _ B) i s Hs) as (I & HI & E & _).
    destruct (im_state _ _ _ _ _ _ _ _ H I HI) as (J & HJ & EJ).
    destruct (lalr_std_all g' start' W' He' lr0' _ m' (b_items _ _ _ _ _ B') (b_merged _ _ _ _ _ B') J HJ) as (i' & s' & Hs' & E' & _).
    exists i', s, s'. split; auto. split; auto. intros p d k. rewrite (E' p d k).
    rewrite (im_lalr _ _ _ _ _ _ _ _ H I J EJ p d k). unfold im. symmetry. apply E.
  Qed.

  (** The state with a given core. *)
  Lemma core_state i j s u : nth_error (t_states t') i = Some s -> nth_error (t_states t') j = Some u ->
    same_core (has s) (has u) -> i = j.
  Proof using W' He' B'.
    intros Hs Hu Hc. apply (lalr_core lr0' _ m' (b_merged _ _ _ _ _ B') i j s u Hs Hu).
    eapply same_core_sets; [| | | |exact Hc];
      try (eapply (lalr_wf lr0' _ m' (b_merged _ _ _ _ _ B')); eauto using nth_error_In); intros p d k; reflexivity.
  Qed.

  Lemma srel_target i i' s s' x j : nth_error (t_states t) i = Some s -> nth_error (t_states t') i' = Some s' ->
    set_eq (has s') (im' (has s)) -> target g lr0 (t_states t) s x j ->
    exists j', target g' lr0' (t_states t') s' (X x) j' /\ srel j j'.
  Proof using H W W' He He' B B'.
    intros Hs Hs' E Ht. assert (Hin : In s (t_states t)) by eauto using nth_error_In. assert (Hin' : In s' (t_states t')) by eauto using nth_error_In.
    assert (Hf : found g' (F_std g') (has s') (X x)).
    { apply (fw_found _ _ _ _ _ _ _ _ H (has s)); auto.
      apply (target_found g start W He lr0 _ m (b_items _ _ _ _ _ B) (b_merged _ _ _ _ _ B) s x Hin). eauto. }
    apply (target_found g' start' W' He' lr0' _ m' (b_items _ _ _ _ _ B') (b_merged _ _ _ _ _ B') s' (X x) Hin') in Hf as [j' Ht'].
    exists j'. split; auto.
    destruct (target_core g start W He lr0 _ m (b_items _ _ _ _ _ B) (b_merged _ _ _ _ _ B) s x j Hin Ht) as (u & Hu & Hc & _).
    destruct (target_core g' start' W' He' lr0' _ m' (b_items _ _ _ _ _ B') (b_merged _ _ _ _ _ B') s' _ j' Hin' Ht') as (u' & Hu' & Hc' & _).
    destruct (srel_total j u Hu) as (j1 & u1 & u1' & Hu1 & Hu1' & E1). rewrite Hu in Hu1. injection Hu1 as <-.
    assert (j1 = j') as <-; [|exists u, u1'; auto].
    apply (core_state j1 j' u1' u' Hu1' Hu').
    assert (Hcc : same_core (im' (clo g (F_std g) (move g (has s) x))) (im' (has u))) by (apply (im_core _ _ _ _ _ _ _ _ H); exact Hc).
    apply (same_core_eq _ _ _ (im_goto _ _ _ _ _ _ _ _ H _ _ x E)) in Hc'.
    apply (same_core_eq _ _ _ E1). intros p d. rewrite <- (Hcc p d). apply Hc'.
  Qed.

  (** What an entry of one table becomes in the other. *)
  Definition arel (a a' : action) : Prop :=
    match a, a' with
    | Shift j, Shift j' => srel j j'
    | Reduce p, Reduce p' => p' = P p
    | Accept, Accept => True
    | _, _ => False
    end.

  Lemma P_zero p : (P p =? 0) = (p =? 0).
  Proof using H.
    pose proof (is_P0 _ _ _ _ _ _ _ _ H) as E. destruct (Nat.eqb_spec p 0) as [->|Hn]; [rewrite E; reflexivity|].
    apply Nat.eqb_neq. intros C. apply Hn. rewrite <- (Pl p), C. rewrite <- E at 1. apply Pl.
  Qed.
  Lemma K_zero k : (K k =? 0) = (k =? 0).
  Proof using H.
    pose proof (is_K0 _ _ _ _ _ _ _ _ H) as E. destruct (Nat.eqb_spec k 0) as [->|Hn]; [rewrite E; reflexivity|].
    apply Nat.eqb_neq. intros C. apply Hn. rewrite <- (Kl k), C. rewrite <- E at 1. apply Kl.
  Qed.

  Lemma fw_action i i' k a : srel i i' -> tbl_get (t_action t) i k = Some a ->
    exists a', tbl_get (t_action t') i' (K k) = Some a' /\ arel a a'.
  Proof using H W W' He He' B B'.
    intros (s & s' & Hs & Hs' & E) Ha. apply (b_action _ _ _ _ _ B) in Ha as (s1 & p & d & Hs1 & Hput).
    rewrite Hs in Hs1. injection Hs1 as <-.
    assert (G : forall k, has s p d k -> has s' (P p) d (K k)).
    { intros k0 Hk. apply E. unfold im. rewrite Pl, Kl. exact Hk. }
    destruct Hput as [(Hc & Hk & ->)|(x & j & Hx & Ht & Htk & [k' Hk'] & Htg & ->)].
    - exists (if (K k =? 0) && (P p =? 0) then Accept else Reduce (P p)). split.
      + apply (b_action _ _ _ _ _ B'). exists s', (P p), d. split; auto. left. split; [apply (fw_complete _ _ _ _ _ _ _ _ H), Hc|auto].
      + rewrite P_zero, K_zero. destruct ((k =? 0) && (p =? 0)); simpl; auto.
    - destruct (srel_target i i' s s' x j Hs Hs' E Htg) as (j' & Htg' & Hj). exists (Shift j'). split; [|exact Hj].
      apply (b_action _ _ _ _ _ B'). exists s', (P p), d. split; auto. right. exists (X x), j'.
      split; [apply (fw_sym_at _ _ _ _ _ _ _ _ H), Hx|]. split; [exact (kind_terminal _ _ (eq_sym (is_kind _ _ _ _ _ _ _ _ H _)) Ht)|].
      split; [apply (is_tok _ _ _ _ _ _ _ _ H), Htk|]. split; [eauto|]. auto.
  Qed.
  Lemma fw_goto i i' A j : srel i i' -> tbl_get (t_goto t) i A = Some j ->
    exists j', tbl_get (t_goto t') i' (rn X A) = Some j' /\ srel j j'.
  Proof using H W W' He He' B B'.
    intros (s & s' & Hs & Hs' & E) Ha. apply (b_goto _ _ _ _ _ B) in Ha as (s1 & Hs1 & HA & Htg).
    rewrite Hs in Hs1. injection Hs1 as <-.
    destruct (srel_target i i' s s' _ j Hs Hs' E Htg) as (j' & Htg' & Hj). exists j'. split; [|exact Hj].
    apply (b_goto _ _ _ _ _ B'). exists s'. split; auto. rewrite <- (fw_non _ _ _ _ _ _ _ _ H). split; [|exact Htg'].
    apply In_nth_error in HA as [k Hk]. apply (fw_tok _ _ _ _ _ _ _ _ H) in Hk. eauto using nth_error_In.
  Qed.
End Tables.
