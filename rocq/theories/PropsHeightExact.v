(** Property C97: which grammars have a bound for the stack. *)
From Coq Require Import ListDec.
From Verif Require Import Base Text Grammar GrammarSpec GrammarProofs First FirstProofs Item ItemSpec ItemProofs ItemPlain GrammarCheck Table TableSpec TableProofs TableFacts
  Parse ParseSpec ParseCheck TreeFacts Auto ParseProofs ParseTerm ParseCycle ParseComplete Report ReportSpec ReportProofs Witness
  PropsGrammar PropsTable PropsParse PropsReport PropsRegular PropsTrace PropsTsError PropsRegularStack HeightSpec PropsHeight.
Local Open Scope list_scope.

(** ** Ways *)
Lemma way_app g A B C k l : way g A B k -> way g B C l -> way g A C (k ++ l).
Proof. induction 1 as [A|pr B C' k H1 H2 _ IH|pr i B C' k H1 H2 _ IH]; intros H; auto; [eapply way_first|cbn [app]; eapply way_later]; eauto. Qed.
Lemma way_split g A C m : way g A C m -> forall k X l, m = k ++ X :: l -> way g A X k /\ way g X C (X :: l).
Proof.
  induction 1 as [A|pr B C m H1 H2 _ IH|pr i B C m H1 H2 H IH]; intros k X l E.
  - destruct k; discriminate E.
  - destruct (IH _ _ _ E) as [J1 J2]. split; auto. eapply way_first; eauto.
  - destruct k as [|Y k]; injection E as <- ->.
    + split; [constructor|eapply way_later; eauto].
    + destruct (IH _ _ _ eq_refl) as [J1 J2]. split; auto. eapply way_later; eauto.
Qed.
Lemma way_names g A C m : way g A C m -> incl m (map p_name (g_prods g)).
Proof.
  induction 1 as [A|pr B C m H1 H2 _ IH|pr i B C m H1 H2 H IH]; auto; [intros x []|]. intros x [<-|Hx]; auto. apply in_map, H1.
Qed.
Lemma way_target g A C m : way g A C m -> (A = C /\ m = []) \/ exists pr, In pr (g_prods g) /\ In (SNon C) (p_syms pr).
Proof.
  induction 1 as [A|pr B C m H1 H2 _ IH|pr i B C m H1 H2 H IH]; auto; right; (destruct IH as [[-> _]|IH]; [exists pr; split; auto; eapply nth_error_In; eauto|exact IH]).
Qed.
Lemma way_short g start A m : ~ comes_back_later g start -> way g start A m -> length m <= length (g_prods g).
Proof.
  intros Hn H. destruct (NoDup_dec (list_eq_dec N.eq_dec) m) as [Hd|Hd].
  - rewrite <- (map_length p_name). apply NoDup_incl_length; auto. eapply way_names; eauto.
  - exfalso. apply dup_split in Hd as (k & X & l & l' & ->).
    destruct (way_split _ _ _ _ H _ _ _ eq_refl) as [J1 J2].
    destruct (way_split _ _ _ _ J2 (X :: l) X l' eq_refl) as [J3 _]. apply Hn. exists X, k, X, l. auto.
Qed.
Lemma ranked_way g rank A C m : first_recursive rank g -> way g A C m -> rank C + length m <= rank A.
Proof.
  intros HR. induction 1 as [A|pr B C m H1 H2 _ IH|pr i B C m H1 H2 _ IH]; [cbn [length]; lia|apply In_nth_error in H1 as [p H1]..].
  - pose proof (HR _ _ _ _ H1 H2) as K. cbn beta iota in K. lia.
  - pose proof (HR _ _ _ _ H1 H2) as K. cbn beta iota in K. cbn [length]. lia.
Qed.
Lemma ranked_forward g rank start : first_recursive rank g -> ~ comes_back_later g start.
Proof. intros HR (A & k & B & l & _ & H). apply (ranked_way g rank) in H; auto. cbn [length] in H. lia. Qed.

(** ** The stack is bounded by the ways *)
Section Ways.
  Variables (g : grammar) (start : str).
  Hypothesis W : wf_grammar g start.
  Hypothesis Hst : g_start g = aug_name start.
  Variables (hash : list item -> N) (t : tables).
  Hypothesis Ht : make_tables hash g = Ok t.
  Hypothesis Hf : start_fresh g.
  Let A : auto g t := tables_auto g start W Hst hash t Ht.

  Lemma way_begins i p d : grounded g t i p d -> forall pr, nth_error (g_prods g) p = Some pr -> d = 0 ->
    (st t i 0 0 0 /\ (p = 0 \/ way g start (p_name pr) [])) \/
    (exists p' d' k' pr', st t i p' (S d') k' /\ nth_error (g_prods g) p' = Some pr' /\ S d' < length (p_syms pr') /\ way g (p_name pr') (p_name pr) [p_name pr']).
  Proof using W.
    induction 1 as [p d k H|H|p d q pq G IH Hs Hq]; intros pr Hp Hd; [discriminate Hd|left; auto|].
    rewrite Hq in Hp. injection Hp as <-. destruct Hs as (pr' & Hp' & Hx). pose proof (nth_error_In _ _ Hp') as Hin. destruct d as [|d].
    - assert (K : forall C, way g C (p_name pr') [] -> way g C (p_name pq) []).
      { intros C HC. apply (way_app _ _ _ _ _ _ HC). eapply way_first; eauto. constructor. }
      destruct (IH pr' Hp' eq_refl) as [[H1 [->|H2]]|(p2 & d2 & k2 & pr2 & H1 & H2 & H3 & H4)].
      + left. split; auto. right. rewrite (wg_prod0 _ _ W) in Hp'. injection Hp' as <-. injection Hx as <-. constructor.
      + left. split; auto.
      + right. exists p2, d2, k2, pr2. split; auto. split; auto. split; auto. change [p_name pr2] with ([p_name pr2] ++ []).
        apply (way_app _ _ _ _ _ _ H4). eapply way_first; eauto. constructor.
    - right. inversion G as [p0 d0 k H| |]; subst. exists p, d, k, pr'. split; auto. split; auto. split; [apply nth_error_Some; rewrite Hx; discriminate|].
      eapply way_later; eauto. constructor.
  Qed.
  Lemma way_height n : forall s ts q p d k pr, length s <= n -> stacked g t (q :: s) ts -> st t q p (S d) k -> nth_error (g_prods g) p = Some pr ->
    (p = 0 /\ length (q :: s) <= 2) \/ exists m, way g start (p_name pr) m /\ length (q :: s) <= 1 + S d + (longest g - 1) * length m.
  Proof using W Hst Ht Hf.
    induction n as [|n IH]; intros s ts q p d k pr Hn Hs Hi Hp.
    all: destruct (back g t A (S d) _ _ _ _ _ Hs Hi) as (pr0 & q2 & s2 & k2 & Hp0 & Hd & E & H2 & _ & H3).
    all: pose proof (f_equal (@length _) E) as EL; rewrite skipn_length in EL; cbn [length Nat.sub] in EL.
    { lia. }
    rewrite Hp in Hp0. injection Hp0 as <-.
    destruct (way_begins _ _ _ (st_grounded g start W hash t Ht _ _ _ _ H3) _ Hp eq_refl) as [[HB Hr]|(p' & d' & k' & pr' & HB & Hp' & Hd' & Hr)].
    - rewrite (left_bottom g start W Hst hash t Ht Hf _ _ _ H2 HB) in EL. destruct Hr as [->|Hr].
      + left. split; auto. destruct (a_dom _ _ A _ _ _ _ Hi) as (pr1 & Hp1 & Hd1 & _). rewrite (wg_prod0 _ _ W) in Hp1. injection Hp1 as <-. cbn [length p_syms] in *. lia.
      + right. exists []. split; auto. cbn [length] in *. lia.
    - right. destruct (IH s2 _ q2 p' d' k' pr' ltac:(lia) H2 HB Hp') as [[-> _]|(m & J1 & J2)].
      { exfalso. rewrite (wg_prod0 _ _ W) in Hp'. injection Hp' as <-. cbn [length p_syms] in Hd'. lia. }
      exists (m ++ [p_name pr']). split; [eapply way_app; eauto|].
      pose proof (longest_ge g pr' (nth_error_In _ _ Hp')) as L. rewrite app_length, Nat.mul_add_distr_l. cbn [length] in *. lia.
  Qed.
  Lemma way_bound s ts : stacked g t s ts -> exists B m, way g start B m /\ length s <= 1 + longest g + (longest g - 1) * length m.
  Proof using W Hst Ht Hf.
    intros Hs. pose proof Hs as Hs'. assert (L0 : 1 <= longest g) by (apply (longest_ge g _ (nth_error_In _ _ (wg_prod0 _ _ W)))).
    destruct Hs as [|q q' s ts tr x H Htr Ho Hr]; [exists start, []; split; [constructor|cbn [length]; lia]|].
    destruct Htr as ((p & d & k & Hi) & _). clear H Hr.
    assert (K : exists p d k pr, st t q' p (S d) k /\ nth_error (g_prods g) p = Some pr /\ S d <= length (p_syms pr)).
    { destruct (a_dom _ _ A _ _ _ _ Hi) as (pr & Hp & Hd & _). destruct d as [|d]; [|exists p, d, k, pr; auto].
      destruct (way_begins _ _ _ (st_grounded g start W hash t Ht _ _ _ _ Hi) _ Hp eq_refl) as [[HB _]|(p' & d' & k' & pr' & HB & Hp' & Hd' & _)].
      - discriminate (left_bottom g start W Hst hash t Ht Hf _ _ _ Hs' HB).
      - exists p', d', k', pr'. split; auto. split; auto. lia. }
    clear p d k Hi. destruct K as (p & d & k & pr & Hi & Hp & Hd). pose proof (longest_ge g pr (nth_error_In _ _ Hp)) as L.
    destruct (way_height _ _ _ _ _ _ _ _ (Nat.le_refl _) Hs' Hi Hp) as [[_ J]|(m & J1 & J2)].
    - exists start, []. split; [constructor|]. cbn [length] in *. lia.
    - exists (p_name pr), m. split; auto. lia.
  Qed.
End Ways.

(** ** Trees along a way *)
Lemma needs_nth ts : forall i k u, nth_error ts i = Some u -> k + i + need u <= needs ts k.
Proof.
  induction ts as [|v ts IH]; intros [|i] k u H; try discriminate H; cbn [nth_error needs] in *.
  - injection H as ->. lia.
  - specialize (IH i (S k) u H). lia.
Qed.
Lemma fill_one g body : (forall x, In x body -> exists l, terminals l /\ derives g [x] l) ->
  forall i x u, nth_error body i = Some x -> tree_ok g u -> root g u = Some x ->
  exists ts, Forall (tree_ok g) ts /\ map (root g) ts = map Some body /\ nth_error ts i = Some u.
Proof.
  intros H. assert (F : exists ts, Forall (tree_ok g) ts /\ map (root g) ts = map Some body).
  { induction body as [|x body IH]; [exists []; auto|]. destruct IH as (ts & F1 & F2); [intros; apply H; right; auto|].
    destruct (H x (or_introl eq_refl)) as (l & Hl & Hd). destruct (derives_tree g _ _ Hd Hl) as (tr & Ho & Hr & _).
    exists (tr :: ts). split; [constructor; auto|]. cbn [map]. congruence. }
  destruct F as (ts & F1 & F2). intros i x u Hi Ho Hr. clear H. revert body F2 i Hi. induction F1 as [|v ts Hv F1 IH]; intros [|y body] F2 i Hi; try discriminate F2.
  - destruct i; discriminate Hi.
  - cbn [map] in F2. injection F2 as F2 F3. destruct i as [|i]; cbn [nth_error] in Hi.
    + injection Hi as ->. exists (u :: ts). split; [constructor; auto|]. split; [cbn [map]; congruence|reflexivity].
    + destruct (IH body F3 i Hi) as (us & U1 & U2 & U3). exists (v :: us). split; [constructor; auto|]. split; [cbn [map]; congruence|exact U3].
Qed.
Lemma fill_rule g pr i B u : all_productive g -> In pr (g_prods g) -> nth_error (p_syms pr) i = Some (SNon B) -> tree_ok g u -> root g u = Some (SNon B) ->
  exists tr, tree_ok g tr /\ root g tr = Some (SNon (p_name pr)) /\ i + need u <= need tr.
Proof.
  intros Hp Hin Hi Ho Hr. destruct (fill_one g (p_syms pr) (fun x => Hp pr x Hin) i _ u Hi Ho Hr) as (ts & H1 & H2 & H3).
  apply In_nth_error in Hin as [p Hn]. exists (Node p ts). split; [econstructor; eauto|]. split; [cbn [root]; rewrite Hn; reflexivity|].
  rewrite need_node. pose proof (needs_nth ts i 0 u H3). lia.
Qed.
Lemma way_tree g A C m : all_productive g -> way g A C m -> forall u, tree_ok g u -> root g u = Some (SNon C) ->
  exists tr, tree_ok g tr /\ root g tr = Some (SNon A) /\ length m + need u <= need tr.
Proof.
  intros Hp. induction 1 as [A|pr B C m H1 H2 _ IH|pr i B C m H1 H2 _ IH]; intros u Ho Hr.
  - exists u. split; auto.
  - destruct (IH u Ho Hr) as (v & V1 & V2 & V3). destruct (fill_rule g pr _ B v Hp H1 H2 V1 V2) as (tr & T1 & T2 & T3). exists tr. split; auto. split; auto. lia.
  - destruct (IH u Ho Hr) as (v & V1 & V2 & V3). destruct (fill_rule g pr _ B v Hp H1 H2 V1 V2) as (tr & T1 & T2 & T3). exists tr. split; auto. split; auto. cbn [length]. lia.
Qed.
Lemma back_trees g start : all_productive g -> comes_back_later g start -> forall n, exists tr, tree_ok g tr /\ root g tr = Some (SNon start) /\ n <= need tr.
Proof.
  intros Hp (A & k & B & l & HA & HB) n.
  assert (G : exists tr, tree_ok g tr /\ root g tr = Some (SNon A) /\ n <= need tr).
  { induction n as [|n (tr & H1 & H2 & H3)].
    - destruct (way_target _ _ _ _ HB) as [[_ E]|(pr & Hin & Hx)]; [discriminate E|]. destruct (Hp pr _ Hin Hx) as (w & Hw & Hd).
      destruct (derives_tree g _ _ Hd Hw) as (tr & Ho & Hr & _). exists tr. split; auto. split; auto. lia.
    - destruct (way_tree g _ _ _ Hp HB tr H1 H2) as (tr' & T1 & T2 & T3). exists tr'. split; auto. split; auto. cbn [length] in T3. lia. }
  destruct G as (tr & H1 & H2 & H3). destruct (way_tree g _ _ _ Hp HA tr H1 H2) as (tr' & T1 & T2 & T3). exists tr'. split; auto. split; auto. lia.
Qed.

(** ** The theorems *)

(** If no name comes back to itself other than at the start of bodies, the stack is bounded on every
    input.  Nothing needs to be known of the names that do: the bound is read off the grammar. *)
Theorem C97_bounded :
  forall ast g st, grammar_from_ast ast = Ok g -> find ap_start ast = Some st -> start_fresh g -> ~ comes_back_later g (ap_name st) ->
  forall hash t, make_tables hash g = Ok t ->
  forall tokens a n c, nsteps (parse_step g t tokens) n (parse_init a) c -> length (ps_stack c) <= 1 + longest g + (longest g - 1) * length (g_prods g).
Proof.
  intros ast g st Hg Hs Hf Hb hash t Ht tokens a n c Hn. destruct (grammar_from_ast_ok _ _ Hg) as (s' & Hs' & W & Hst & _). rewrite Hs in Hs'. injection Hs' as <-.
  destruct (C97_heights _ _ Hg _ _ Ht _ _ _ _ Hn) as (ts & HS & _).
  destruct (way_bound g _ W Hst hash t Ht Hf _ _ HS) as (B & m & HB & HL). pose proof (way_short g _ _ _ Hb HB) as HM.
  pose proof (Nat.mul_le_mono_l _ _ (longest g - 1) HM). lia.
Qed.
Print Assumptions C97_bounded.

(** If one does, there is none, if every symbol derives something and no transition is missing from
    the tables: for every number, some sentence needs a higher stack. *)
Theorem C97_unbounded :
  forall ast g st, grammar_from_ast ast = Ok g -> find ap_start ast = Some st -> plain g -> start_fresh g -> all_productive g -> comes_back_later g (ap_name st) ->
  forall hash t, make_tables hash g = Ok t -> closed g t ->
  forall m, exists tokens w ps a n c, ended tokens w /\ sentence g (ap_name st) w /\ parse_impl g t tokens = Ok ps /\
    nth_error tokens 0 = Some a /\ nsteps (parse_step g t tokens) n (parse_init a) c /\ m < length (ps_stack c).
Proof.
  intros ast g st Hg Hs Hpl Hf Hp Hb hash t Ht Hcl m. destruct (grammar_from_ast_ok _ _ Hg) as (s' & Hs' & W & Hst & _). rewrite Hs in Hs'. injection Hs' as <-.
  destruct (back_trees g _ Hp Hb (S m)) as (tr & Ho & Hr & Hn).
  pose proof (tree_terminals g tr Ho) as HT. pose proof (tree_derives g tr _ Ho Hr) as HD.
  destruct (known_numbers g (yield tr)) as [w Hw]; [eapply derives_known; eauto|].
  assert (HS : sentence g (ap_name st) w) by (exists (yield tr); auto).
  assert (He : ended (w ++ [0]) w) by (split; [reflexivity|eapply sentence_no_eof; eauto; apply Hpl]).
  assert (Htr : parse_tree g (ap_name st) w tr) by (split; auto).
  destruct (C30_completeness_partial _ _ _ Hg Hs Hpl Hf _ _ Ht Hcl _ _ He) as [HC _]. specialize (HC _ Htr).
  destruct (C97_accepted _ _ _ Hg Hs (proj2 Hpl) Hf _ _ Ht _ _ _ He HC) as (tr' & a & n & c & Htr' & Epo & Ha & Hn' & _ & _ & HH & _).
  assert (tr' = tr) as -> by (destruct Htr' as (Ho' & Hr' & _); eapply post_inj; eauto; congruence).
  assert (K : exists k c', nsteps (parse_step g t (w ++ [0])) k (parse_init a) c' /\ m < length (ps_stack c')).
  { assert (HM : m < highest (heights g t (w ++ [0]) n (parse_init a))) by lia. clear -HM.
    assert (G : forall n s, m < highest (heights g t (w ++ [0]) n s) -> exists k c', nsteps (parse_step g t (w ++ [0])) k s c' /\ m < length (ps_stack c')).
    { induction n0 as [|n0 IH]; intros s H; [cbn in H; lia|]. cbn [heights] in H. destruct (parse_step g t (w ++ [0]) s) as [s'|r] eqn:E; [|cbn in H; lia].
      cbn [highest fold_right] in H. apply Nat.max_lt_iff in H as [H|H].
      - exists 1, s'. split; auto. econstructor; [exact E|constructor].
      - destruct (IH s' H) as (k & c' & H1 & H2). exists (S k), c'. split; auto. econstructor; eauto. }
    exact (G _ _ HM). }
  destruct K as (k & c' & K1 & K2). exists (w ++ [0]), w, (postorder tr), a, k, c'. exact (conj He (conj HS (conj HC (conj Ha (conj K1 K2))))).
Qed.
Print Assumptions C97_unbounded.

(** So there is a bound for all sentences exactly if no name comes back to itself other than at the
    start of bodies. *)
Theorem C97_bounded_iff :
  forall ast g st, grammar_from_ast ast = Ok g -> find ap_start ast = Some st -> plain g -> start_fresh g -> all_productive g ->
  forall hash t, make_tables hash g = Ok t -> closed g t ->
  ((exists m, forall tokens w a n c, ended tokens w -> sentence g (ap_name st) w -> nth_error tokens 0 = Some a ->
      nsteps (parse_step g t tokens) n (parse_init a) c -> length (ps_stack c) <= m) <-> ~ comes_back_later g (ap_name st)).
Proof.
  intros ast g st Hg Hs Hpl Hf Hp hash t Ht Hcl. split.
  - intros [m Hm] Hb. destruct (C97_unbounded _ _ _ Hg Hs Hpl Hf Hp Hb _ _ Ht Hcl m) as (tokens & w & ps & a & n & c & H1 & H2 & _ & H3 & H4 & H5).
    specialize (Hm _ _ _ _ _ H1 H2 H3 H4). lia.
  - intros Hb. exists (1 + longest g + (longest g - 1) * length (g_prods g)). intros tokens w a n c _ _ _ Hn. eapply C97_bounded; eauto.
Qed.
Print Assumptions C97_bounded_iff.

(** ** The hypotheses are met *)

(** Sums, E -> E "+" T | T; T -> "x", come back only at the start: at most 1 + 3 + 2 * 4 entries. *)
Example C97_bounded_nonvacuous : exists g t st, tables_of w_expr g t /\ find ap_start w_expr = Some st /\ well_formed g /\ all_productive g /\ closed g t /\
  ~ comes_back_later g (ap_name st) /\ 1 + longest g + (longest g - 1) * length (g_prods g) = 12.
Proof.
  destruct (grammar_from_ast w_expr) as [g| |] eqn:Eg; [|vm_compute in Eg; discriminate Eg..].
  destruct (make_tables ehash g) as [t| |] eqn:Et; [|vm_compute in Eg; injection Eg as <-; vm_compute in Et; discriminate Et..].
  eexists g, t, _. split; [apply tables_of_any; auto|]. split; [reflexivity|]. vm_compute in Eg; injection Eg as <-; vm_compute in Et; injection Et as <-.
  split; [split; [split; [apply eps_free_b_ok|apply eof_free_b_ok]|apply start_fresh_b_ok]; reflexivity|].
  split. { set (T := Node 3 [Leaf (SStr [120]%N)]). apply (productive_b_ok _ [T; Node 2 [T]]). vm_compute. reflexivity. }
  split; [apply closed_b_ok; vm_compute; reflexivity|]. split; [|reflexivity].
  apply (ranked_forward _ (fun A => if eqb A [84]%N then 0 else 1)).
  intros p pr i A Hp Hi. cbn [g_prods] in Hp. do 4 (destruct p as [|p]; [injection Hp as <-; cbn [p_syms p_name] in *;
    do 3 (destruct i as [|i]; [try discriminate Hi; injection Hi as <-; vm_compute; lia|]); destruct i; discriminate Hi|]). destruct p; discriminate Hp.
Qed.

(** S -> C C; C -> "c" C | "d": C comes back at the end of a body. *)
Example C97_unbounded_nonvacuous : exists g t st, tables_of w_cc g t /\ find ap_start w_cc = Some st /\ well_formed g /\ all_productive g /\ closed g t /\
  comes_back_later g (ap_name st).
Proof.
  destruct (grammar_from_ast w_cc) as [g| |] eqn:Eg; [|vm_compute in Eg; discriminate Eg..].
  destruct (make_tables ehash g) as [t| |] eqn:Et; [|vm_compute in Eg; injection Eg as <-; vm_compute in Et; discriminate Et..].
  eexists g, t, _. split; [apply tables_of_any; auto|]. split; [reflexivity|]. vm_compute in Eg; injection Eg as <-; vm_compute in Et; injection Et as <-.
  split; [split; [split; [apply eps_free_b_ok|apply eof_free_b_ok]|apply start_fresh_b_ok]; reflexivity|].
  split. { set (C := Node 3 [Leaf (SStr [100]%N)]). apply (productive_b_ok _ [C; Node 1 [C; C]]). vm_compute. reflexivity. }
  split; [apply closed_b_ok; vm_compute; reflexivity|]. exists [67]%N, [], [67]%N, [].
  split.
  - match goal with |- way ?G _ _ _ => exact (way_first G (nth 1 (g_prods G) (Production [] [] None None)) [67]%N _ _ (or_intror (or_introl eq_refl)) eq_refl (way_end _ _)) end.
  - match goal with |- way ?G _ _ _ => exact (way_later G (nth 2 (g_prods G) (Production [] [] None None)) 0 [67]%N _ _ (or_intror (or_intror (or_introl eq_refl))) eq_refl (way_end _ _)) end.
Qed.
