(** Grammars built from ASTs with the same rules correspond; their lexers are equal. *)
From Coq Require Import Permutation.
From Verif Require Import Base IsoSpec Regex Nfa Dfa Lex Grammar GrammarSpec GrammarProofs First FirstProofs Item ItemSpec ItemProofs ItemPlain Table
  MergeProofs TableSpec TableProofs TableFacts LexGrammar Parse Iso IsoParse.

Lemma prods_rules ast g : grammar_from_ast ast = Ok g -> exists st, find ap_start ast = Some st /\ wf_grammar g (ap_name st) /\
  map shape (g_prods g) = (aug_name (ap_name st), [SNon (ap_name st)]) :: ast_rules ast.
Proof.
  intros Hg. destruct (grammar_from_ast_ok _ _ Hg) as (st & Hst & W & _ & E). exists st. split; auto. split; auto.
  rewrite E. cbn [map]. unfold shape at 1. cbn [p_name p_syms]. f_equal. unfold ast_rules. clear.
  induction ast as [|p ast IH]; cbn [flat_map]; auto. rewrite map_app, IH, map_map. reflexivity.
Qed.

(** Maps that agree on the symbols in use do the same. *)
Lemma xrule_ext f X e : f (SNon (fst e)) = X (SNon (fst e)) -> (forall x, In x (snd e) -> f x = X x) -> xrule f e = xrule X e.
Proof. intros H1 H2. unfold xrule, rn. rewrite H1. f_equal. apply map_ext_in. exact H2. Qed.
Lemma rules_syms s ast e x : In e (ast_rules ast) -> x = SNon (fst e) \/ In x (snd e) -> In x (ast_syms s ast).
Proof.
  intros He H. right. right. apply in_flat_map. exists e. split; auto. destruct H as [->|H]; [left; reflexivity|right; exact H].
Qed.

(** ** Token tables *)
Lemma tok_split (g : grammar) l k x : g_tokens g = SEof :: l -> NoDup l ->
  tok g k x <-> (k = 0 /\ x = SEof) \/ (exists j, k = S j /\ nth_error l j = Some x /\ x <> SEof).
Proof.
  intros E Hn. unfold tok. rewrite E. split.
  - intros [H1 H2]. destruct k as [|j]; [left; simpl in H1; split; congruence|right]. exists j. split; auto. split; auto.
    intros ->. apply (H2 0); [lia|reflexivity].
  - intros [[-> ->]|(j & -> & Hj & Hx)]; [split; [reflexivity|intros j Hj; lia]|]. split; [exact Hj|].
    intros i Hi Ei. destruct i as [|i]; [simpl in Ei; congruence|]. simpl in Ei.
    assert (i = j); [|lia]. apply (proj1 (NoDup_nth_error l) Hn); [apply nth_error_Some; congruence|congruence].
Qed.

(** The position of an element of a sorted list is the number of smaller ones. *)
Lemma sorted_pos (l : list sym) : ssorted l -> forall k x, nth_error l k = Some x ->
  k = length (filter (fun y => match cmp y x with Lt => true | _ => false end) l).
Proof.
  induction l as [|a l IH]; intros Hs k x Hk; [destruct k; discriminate|]. destruct Hs as [Ha Hs]. destruct k as [|k]; simpl in Hk.
  - injection Hk as ->. cbn [filter]. rewrite cmp_refl.
    assert (G : filter (fun y => match cmp y x with Lt => true | _ => false end) l = []); [|rewrite G; reflexivity].
    assert (G : forall y, In y l -> (match cmp y x with Lt => true | _ => false end) = false).
    { intros y Hy. apply Ha in Hy. destruct (cmp y x) eqn:E; auto. exfalso. apply (cmp_lt_irrefl x). eapply cmp_trans; eauto. }
    clear -G. induction l as [|b l IH]; [reflexivity|]. cbn [filter]. rewrite G by (left; reflexivity). apply IH. intros y Hy. apply G. right; exact Hy.
  - cbn [filter]. rewrite (Ha x (nth_error_In _ _ Hk)). cbn [length]. f_equal. apply IH; auto.
Qed.

Lemma cmp_rsym r y x : terminal x -> cmp (rsym r y) x = cmp y x.
Proof. intros Hx. destruct y; auto. destruct x; try reflexivity. exfalso. eapply Hx. reflexivity. Qed.

(** Renaming the non-terminals is one way of writing the symbols differently. *)
Lemma same_respelt r ast ast' : same_rules r ast ast' -> respelt (rsym r) ast ast'.
Proof.
  intros [HP (s & s' & Hs & Hs' & En & Ea & Hi)]. constructor; [exact HP|]. exists s, s'. split; auto. split; auto.
  split; [simpl; congruence|]. split; [simpl; congruence|]. split; [intros [| | | |] _; reflexivity|].
  assert (G : forall n, In (SNon n) (ast_syms s ast) -> In n (aug_name (ap_name s) :: ap_name s :: ast_names ast)).
  { intros n [E|[E|Hn]]; [injection E as ->; left; reflexivity|injection E as ->; right; left; reflexivity|right; right].
    apply in_flat_map in Hn as (e & He & Hn). unfold ast_names. apply in_flat_map. exists e. split; auto.
    destruct Hn as [E|Hn]; [injection E as ->; left; reflexivity|right]. apply in_flat_map. exists (SNon n). split; auto. left; reflexivity. }
  intros [a|a|a| |] [b|b|b| |] Hx Hy E; simpl in E; try discriminate; try exact E. injection E as E. f_equal. apply Hi; auto.
Qed.

Lemma filter_map_len {A B} (h : A -> B) (f : B -> bool) l : length (filter f (map h l)) = length (filter (fun a => f (h a)) l).
Proof. induction l as [|a l IH]; simpl; auto. destruct (f (h a)); simpl; congruence. Qed.
Lemma filter_perm_len {A} (f : A -> bool) l l' : Permutation l l' -> length (filter f l) = length (filter f l').
Proof. induction 1; simpl; auto; try congruence; repeat match goal with |- context [f ?a] => destruct (f a) end; simpl; congruence. Qed.

Section Same.
  Variables (X : sym -> sym) (ast ast' : list aprod) (g g' : grammar).
  Hypothesis HR : respelt X ast ast'.
  Hypothesis Hg : grammar_from_ast ast = Ok g.
  Hypothesis Hg' : grammar_from_ast ast' = Ok g'.

  (** The map as a bijection, and the rules as permutations of each other. *)
  Lemma same_perm : exists f f', bij f f' /\ (forall x, sym_kind (f x) = sym_kind x) /\
    (forall p pr, nth_error (g_prods g) p = Some pr -> xrule f (shape pr) = xrule X (shape pr) /\ forall x, In x (p_syms pr) -> f x = X x) /\
    exists st l st' l', map shape (g_prods g) = st :: l /\ map shape (g_prods g') = st' :: l' /\ xrule f st = st' /\
      Permutation (map (xrule f) l) l'.
  Proof using HR Hg Hg'.
    destruct HR as [HP (s & s' & Hs & Hs' & En & Ea & Hk & Hi)].
    destruct (prods_rules _ _ Hg) as (st & Hst & W & E). destruct (prods_rules _ _ Hg') as (st' & Hst' & W' & E').
    rewrite Hs in Hst. injection Hst as <-. rewrite Hs' in Hst'. injection Hst' as <-.
    destruct (extend_bij_class sym_kind X _ Hi Hk) as (f & f' & Hb & Hf & Hfk). exists f, f'. split; auto. split; auto.
    assert (G : forall e, In e (map shape (g_prods g)) -> f (SNon (fst e)) = X (SNon (fst e)) /\ forall x, In x (snd e) -> f x = X x).
    { intros e He. rewrite E in He. destruct He as [<-|He]; simpl.
      - split; [apply Hf; left; reflexivity|]. intros x [<-|[]]. apply Hf. right. left. reflexivity.
      - split; [|intros x Hx]; apply Hf; eapply rules_syms; eauto. }
    assert (G' : forall e, In e (map shape (g_prods g)) -> xrule f e = xrule X e).
    { intros e He. destruct (G e He). apply xrule_ext; auto. }
    split.
    { intros p pr Hp. assert (Hin : In (shape pr) (map shape (g_prods g))) by (apply in_map; eauto using nth_error_In).
      split; [apply G', Hin|]. apply (G _ Hin). }
    exists (aug_name (ap_name s), [SNon (ap_name s)]), (ast_rules ast), (aug_name (ap_name s'), [SNon (ap_name s')]), (ast_rules ast').
    split; auto. split; auto. split.
    - rewrite G' by (rewrite E; left; reflexivity). unfold xrule, rn. cbn [fst snd map]. rewrite Ea, En. reflexivity.
    - rewrite <- (map_ext_in (xrule X) (xrule f)) ; [exact HP|]. intros e He. symmetry. apply G'. rewrite E. right. exact He.
  Qed.

  Lemma same_tokens f f' : bij f f' ->
    (exists st l st' l', map shape (g_prods g) = st :: l /\ map shape (g_prods g') = st' :: l' /\ xrule f st = st' /\
      Permutation (map (xrule f) l) l') ->
    exists l l', g_tokens g = SEof :: l /\ g_tokens g' = SEof :: l' /\ ssorted l /\ ssorted l' /\ Permutation (map f l) l'.
  Proof using Hg Hg'.
    intros Hb (st & rl & st' & rl' & E & E' & Est & HP).
    destruct (prods_rules _ _ Hg) as (s & _ & W & _). destruct (prods_rules _ _ Hg') as (s' & _ & W' & _).
    destruct (wg_tokens _ _ W) as (l & El & Hs & Hl). destruct (wg_tokens _ _ W') as (l' & El' & Hs' & Hl').
    exists l, l'. do 4 (split; auto). apply NoDup_Permutation.
    - apply FinFun.Injective_map_NoDup; [|apply ssorted_NoDup, Hs]. intros a b Eab.
      rewrite <- (bij_l _ _ Hb a), Eab. apply (bij_l _ _ Hb).
    - apply ssorted_NoDup, Hs'.
    - assert (G : forall (g0 : grammar) l0, (forall x, In x l0 <-> exists p, In p (g_prods g0) /\ In x (p_syms p)) ->
        forall x, In x l0 <-> exists e, In e (map shape (g_prods g0)) /\ In x (snd e)).
      { intros g0 l0 H0 x. rewrite H0. split.
        - intros (p & Hp & Hx). exists (shape p). split; [apply in_map, Hp|exact Hx].
        - intros (e & He & Hx). apply in_map_iff in He as (p & <- & Hp). eauto. }
      assert (HP' : Permutation (map (xrule f) (map shape (g_prods g))) (map shape (g_prods g'))).
      { rewrite E, E'. cbn [map]. rewrite Est. constructor. exact HP. }
      intros x. rewrite (G g' l' Hl' x). rewrite in_map_iff. split.
      + intros (y & <- & Hy). apply (G g l Hl) in Hy as (e & He & Hy). exists (xrule f e). split.
        * eapply Permutation_in; [exact HP'|]. apply in_map, He.
        * unfold xrule. simpl. apply in_map, Hy.
      + intros (e & He & Hx). apply (Permutation_in _ (Permutation_sym HP')) in He. apply in_map_iff in He as (e0 & <- & He0).
        unfold xrule in Hx. simpl in Hx. apply in_map_iff in Hx as (y & <- & Hy). exists y. split; auto. apply (G g l Hl). eauto.
  Qed.

  Lemma same_iso : exists f f' P P' K K', iso g g' f f' P P' K K' /\
    (forall p pr, nth_error (g_prods g) p = Some pr -> xrule f (shape pr) = xrule X (shape pr)) /\
    (forall pr x, In pr (g_prods g) -> In x (p_syms pr) -> f x = X x) /\
    (forall k x, nth_error (g_tokens g) k = Some x ->
       (forall pr y, In pr (g_prods g) -> In y (p_syms pr) -> cmp (X y) (X x) = cmp y x) -> K k = k).
  Proof using HR Hg Hg'.
    destruct same_perm as (f & f' & Hb & Hfk & Hf & HP). destruct (same_tokens f f' Hb HP) as (l & l' & El & El' & Hs & Hs' & HPt).
    destruct HP as (st & rl & st' & rl' & E & E' & Est & HP).
    destruct (perm_bij _ _ HP) as (p & p' & [Hp1 Hp2] & Hp). destruct (perm_bij _ _ HPt) as (k & k' & [Hk1 Hk2] & Hk).
    pose proof (ssorted_NoDup _ Hs) as Hn. pose proof (ssorted_NoDup _ Hs') as Hn'.
    pose proof (kind_back _ _ Hb Hfk) as Hfk'.
    assert (He0 : forall h : sym -> sym, (forall x, sym_kind (h x) = sym_kind x) -> forall x, h x = SEof <-> x = SEof).
    { intros h Hh x. specialize (Hh x). split.
      - intros Ex. rewrite Ex in Hh. destruct x; try discriminate. reflexivity.
      - intros ->. destruct (h SEof); try discriminate. reflexivity. }
    pose proof (He0 f Hfk) as He. pose proof (He0 f' Hfk') as He'. clear He0.
    assert (HfX : forall pr x, In pr (g_prods g) -> In x (p_syms pr) -> f x = X x).
    { intros pr x Hpr. apply In_nth_error in Hpr as [n Hpr]. exact (proj2 (Hf n pr Hpr) x). }
    assert (Hl : forall x, In x l -> exists pr, In pr (g_prods g) /\ In x (p_syms pr)).
    { destruct (prods_rules _ _ Hg) as (s & _ & W & _). destruct (wg_tokens _ _ W) as (l0 & E0 & _ & Hl0).
      rewrite El in E0. injection E0 as <-. intros x. apply Hl0. }
    exists f, f', (fun n => match n with O => O | S m => S (p m) end), (fun n => match n with O => O | S m => S (p' m) end),
      (fun n => match n with O => O | S m => S (k m) end), (fun n => match n with O => O | S m => S (k' m) end).
    split; [|split; [intros; eapply Hf; eassumption|split; [exact HfX|]]].
    - constructor; auto.
      + split; intros [|n]; auto.
      + split; intros [|n]; auto.
      + intros [|n]; rewrite E, E'; simpl; [congruence|]. rewrite Hp, nth_error_map. reflexivity.
      + intros [|n]; rewrite El, El'; simpl; [rewrite (proj2 (He SEof) eq_refl); reflexivity|]. rewrite Hk, nth_error_map. reflexivity.
      + intros n x. rewrite (tok_split g l n x El Hn), (tok_split g' l' _ _ El' Hn').
        intros [[-> ->]|(j & -> & Hj & Hx)]; [left; split; [auto|apply He; auto]|right]. exists (k j). split; auto. split.
        * rewrite Hk. apply map_nth_error, Hj.
        * rewrite He. exact Hx.
      + intros n x. rewrite (tok_split g l _ _ El Hn), (tok_split g' l' n x El' Hn').
        intros [[-> ->]|(j & -> & Hj & Hx)]; [left; split; [auto|apply He'; auto]|right]. exists (k' j). split; auto. split.
        * rewrite <- (Hk2 j), Hk, nth_error_map in Hj. destruct (nth_error l (k' j)) as [y|]; [|discriminate].
          simpl in Hj. apply (f_equal (option_map f')) in Hj. simpl in Hj. rewrite (bij_l _ _ Hb) in Hj. exact Hj.
        * rewrite He'. exact Hx.
    - intros [|n] x Hx Ho; auto. f_equal. rewrite El in Hx. simpl in Hx.
      destruct (Hl x (nth_error_In _ _ Hx)) as (px & Hpx & Hxx).
      assert (Hx' : nth_error l' (k n) = Some (X x)) by (rewrite Hk, (map_nth_error f _ _ Hx), (HfX px); auto).
      rewrite (sorted_pos l Hs n x Hx) at 2. rewrite (sorted_pos l' Hs' _ _ Hx').
      rewrite <- (filter_perm_len _ _ _ HPt), filter_map_len. f_equal. apply filter_ext_in. intros y Hy.
      destruct (Hl y Hy) as (py & Hpy & Hyy). rewrite (HfX py), (Ho py); auto.
  Qed.

  Lemma same_eps_free : eps_free g -> eps_free g'.
  Proof using HR Hg Hg'.
    intros He. destruct same_iso as (f & f' & P & P' & K & K' & HI & _).
    intros pr Hpr. apply In_nth_error in Hpr as [p Hp]. rewrite <- (bij_r _ _ (is_P _ _ _ _ _ _ _ _ HI) p) in Hp.
    eapply (fw_eps_free _ _ _ _ _ _ _ _ HI He); eauto.
  Qed.
End Same.

(** ** Lexers *)
Lemma tokens_from_same parse l : forall l' i, length l = length l' ->
  (forall k x, nth_error l k = Some x -> terminal x -> nth_error l' k = Some x) ->
  (forall k x, nth_error l' k = Some x -> terminal x -> nth_error l k = Some x) ->
  grammar_tokens_from parse i l' = grammar_tokens_from parse i l.
Proof.
  induction l as [|x l IH]; intros [|x' l'] i Hlen H1 H2; simpl in Hlen; try discriminate; auto.
  cbn [grammar_tokens_from].
  assert (Ex : token_def_with_regex parse x' i = token_def_with_regex parse x i).
  { destruct (is_term x) eqn:Et.
    - apply is_term_terminal in Et. specialize (H1 0 x eq_refl Et). simpl in H1. congruence.
    - destruct (is_term x') eqn:Et'.
      + apply is_term_terminal in Et'. specialize (H2 0 x' eq_refl Et'). simpl in H2. congruence.
      + destruct x, x'; try discriminate. reflexivity. }
  rewrite Ex, (IH l' (S i)); auto.
  - intros k y Hk. apply (H1 (S k) y Hk).
  - intros k y Hk. apply (H2 (S k) y Hk).
Qed.

(** Renaming the non-terminals leaves the terminals where they are. *)
Lemma same_rules_iso r ast ast' g g' :
  same_rules r ast ast' -> grammar_from_ast ast = Ok g -> grammar_from_ast ast' = Ok g' ->
  exists f f' P P' K K', iso g g' f f' P P' K K' /\
    (forall p pr, nth_error (g_prods g) p = Some pr -> xrule f (shape pr) = rrule r (shape pr)) /\
    (forall k x, nth_error (g_tokens g) k = Some x -> terminal x -> f x = x /\ K k = k).
Proof.
  intros HR Hg Hg'. destruct (same_iso _ _ _ _ _ (same_respelt _ _ _ HR) Hg Hg') as (f & f' & P & P' & K & K' & HI & Hf & HX & HK).
  exists f, f', P, P', K, K'. split; auto. split; auto. intros k x Hx Ht. split.
  - destruct (prods_rules _ _ Hg) as (s & _ & W & _). destruct (wg_tokens _ _ W) as (l & El & _ & Hl).
    pose proof (nth_error_In _ _ Hx) as Hin. rewrite El in Hin. destruct Hin as [<-|Hin].
    + pose proof (is_kind _ _ _ _ _ _ _ _ HI SEof) as E. destruct (f SEof); try discriminate. reflexivity.
    + apply Hl in Hin as (pr & Hp & Hin). rewrite (HX pr x Hp Hin). apply rsym_terminal, Ht.
  - apply (HK k x Hx). intros pr y _ _. rewrite (rsym_terminal r x Ht). apply cmp_rsym, Ht.
Qed.

Lemma same_lexer r ast ast' g g' parse :
  same_rules r ast ast' -> grammar_from_ast ast = Ok g -> grammar_from_ast ast' = Ok g' ->
  from_grammar parse g' = from_grammar parse g.
Proof.
  intros HR Hg Hg'. destruct (same_rules_iso _ _ _ _ _ HR Hg Hg') as (f & f' & P & P' & K & K' & HI & _ & HK).
  assert (Hlen : length (g_tokens g) = length (g_tokens g')).
  { pose proof (same_respelt _ _ _ HR) as HS.
    destruct (same_perm _ _ _ _ _ HS Hg Hg') as (h & h' & Hb & _ & _ & HP).
    destruct (same_tokens _ _ _ _ Hg Hg' h h' Hb HP) as (l & l' & El & El' & _ & _ & HPt).
    rewrite El, El'. simpl. f_equal. rewrite <- (Permutation_length HPt). symmetry. apply map_length. }
  unfold from_grammar, grammar_tokens. rewrite (tokens_from_same parse (g_tokens g) (g_tokens g') 0 Hlen); auto.
  - intros k x Hk Ht. pose proof (fw_tok _ _ _ _ _ _ _ _ HI _ _ Hk) as Hk'. destruct (HK k x Hk Ht) as [E1 E2]. rewrite E1, E2 in Hk'. exact Hk'.
  - intros k x Hk Ht. pose proof (fw_tok _ _ _ _ _ _ _ _ (iso_sym _ _ _ _ _ _ _ _ HI) _ _ Hk) as Hk'.
    assert (Ht' : terminal (f' x)) by (eapply kind_terminal; [|exact Ht]; symmetry; apply (is_kind _ _ _ _ _ _ _ _ (iso_sym _ _ _ _ _ _ _ _ HI))).
    destruct (HK _ _ Hk' Ht') as [E1 E2]. rewrite (bij_r _ _ (is_K _ _ _ _ _ _ _ _ HI)) in E2.
    rewrite (bij_r _ _ (is_X _ _ _ _ _ _ _ _ HI)) in E1. rewrite <- E1, <- E2 in Hk'. exact Hk'.
Qed.

(** ** The relation is an equivalence of sorts: reversing a renaming. *)
Lemma perm_same ast ast' s s' : Permutation (ast_rules ast) (ast_rules ast') ->
  find ap_start ast = Some s -> find ap_start ast' = Some s' -> ap_name s' = ap_name s -> same_rules (fun n => n) ast ast'.
Proof.
  intros HP Hs Hs' En. constructor.
  - rewrite <- (map_id (ast_rules ast)) in HP. rewrite (map_ext _ (fun e => e)); [exact HP|].
    intros [n b]. unfold rrule. simpl. f_equal. rewrite <- (map_id b) at 2. apply map_ext. intros [| | | |]; reflexivity.
  - exists s, s'. rewrite En. auto.
Qed.
