(** Property C97: how high the stack gets. *)
From Coq Require Import String.
From Verif Require Import Base Text Grammar GrammarSpec GrammarProofs First Item ItemSpec ItemProofs ItemPlain GrammarCheck Table TableSpec TableProofs TableFacts
  Parse ParseSpec ParseCheck TreeFacts Auto ParseProofs ParseTerm ParseCycle ParseComplete Report ReportSpec ReportProofs Trace TraceSpec Witness
  PropsGrammar PropsTable PropsParse PropsMixUse RegularSpec PropsRegular PropsCheck PropsTrace PropsRegularStack HeightSpec.
Local Open Scope list_scope.

(** ** The walk *)
Lemma walk_node p ts h : walk (Node p ts) h = walks ts h ++ [S h].
Proof. reflexivity. Qed.
Lemma walks_app a b h : walks (a ++ b) h = walks a h ++ walks b (length a + h).
Proof.
  revert h. induction a as [|x a IH]; intros h; auto. cbn [app walks length]. rewrite IH, app_assoc. replace (length a + S h) with (S (length a) + h) by lia. reflexivity.
Qed.
Lemma highest_app a b : highest (a ++ b) = Nat.max (highest a) (highest b).
Proof. unfold highest. induction a as [|x a IH]; cbn [app fold_right]; auto. rewrite IH. lia. Qed.
Fixpoint needs (l : list tree) (i : nat) : nat := match l with [] => 0 | tr :: l => Nat.max (i + need tr) (needs l (S i)) end.
Lemma need_node p ts : need (Node p ts) = Nat.max 1 (needs ts 0).
Proof. reflexivity. Qed.
Lemma needs_shift l : forall i k, l <> [] -> needs l (k + i) = k + needs l i.
Proof.
  induction l as [|x l IH]; intros i k H; [contradiction|]. cbn [needs]. destruct l as [|y l]; [cbn [needs]; lia|].
  replace (S (k + i)) with (k + S i) by lia. rewrite IH by discriminate. lia.
Qed.
Lemma need_walk tr : forall h, highest (walk tr h) = h + need tr.
Proof.
  induction tr as [x|p ts IH] using tree_ind'; intros h; [cbn; lia|].
  assert (G : forall h, highest (walks ts h) = needs ts h).
  { induction IH as [|u l Hu _ IHl]; intros k; auto. cbn [walks needs]. rewrite highest_app, Hu, IHl. reflexivity. }
  rewrite walk_node, need_node, highest_app, G. cbn [highest fold_right]. destruct ts as [|u l]; [cbn [needs]; lia|].
  replace h with (h + 0) at 1 by lia. rewrite needs_shift by discriminate. lia.
Qed.
Lemma walk_length tr : forall h, length (walk tr h) = length (yield tr) + length (postorder tr).
Proof.
  induction tr as [x|p ts IH] using tree_ind'; intros h; [reflexivity|].
  assert (G : forall h, length (walks ts h) = length (flat_map yield ts) + length (flat_map postorder ts)).
  { induction IH as [|u l Hu _ IHl]; intros k; auto. cbn [walks flat_map]. rewrite !app_length, Hu, IHl. lia. }
  rewrite walk_node. cbn [yield postorder]. rewrite !app_length, G. cbn [length]. lia.
Qed.

(** ** A bound *)
Lemma need_turns g tr : tree_ok g tr -> need tr <= 1 + (longest g - 1) * turns tr.
Proof.
  induction tr as [x|p ts IH] using tree_ind'; intros Ho; [cbn; lia|]. apply tree_ok_node in Ho as (pr & Hp & Hts & Hm).
  assert (Hlen : length ts <= longest g).
  { pose proof (longest_ge g pr (nth_error_In _ _ Hp)) as L. apply (f_equal (@length _)) in Hm. rewrite !map_length in Hm. lia. }
  rewrite need_node. set (L := longest g - 1) in *. assert (Hi : length ts - 1 <= L) by (unfold L; lia). destruct ts as [|u l]; [cbn; lia|].
  inversion IH as [|? ? IHu IHl]; subst. inversion Hts as [|? ? Hu Hl]; subst. specialize (IHu Hu). cbn [needs turns Nat.add].
  assert (G : forall l i, i + length l <= S L -> 1 <= i -> Forall (fun tr => tree_ok g tr -> need tr <= 1 + L * turns tr) l -> Forall (tree_ok g) l ->
    needs l i <= 1 + L * fold_right Nat.max 0 (map (fun u => S (turns u)) l)).
  { clear. induction l as [|v l IH]; intros i Hi H1 HF HO; [cbn; lia|]. inversion HF as [|? ? Hv HF']; subst. inversion HO as [|? ? Ov HO']; subst.
    cbn [needs map fold_right length] in *. specialize (IH (S i) ltac:(lia) ltac:(lia) HF' HO'). specialize (Hv Ov).
    set (m := fold_right Nat.max 0 _) in *. pose proof (Nat.mul_le_mono_l (S (turns v)) (Nat.max (S (turns v)) m) L (Nat.le_max_l _ _)).
    pose proof (Nat.mul_le_mono_l m (Nat.max (S (turns v)) m) L (Nat.le_max_r _ _)). rewrite Nat.mul_succ_r in H. lia. }
  specialize (G l 1 ltac:(cbn [length] in Hi; lia) (Nat.le_refl _) IHl Hl). set (m := fold_right Nat.max 0 _) in *.
  pose proof (Nat.mul_le_mono_l (turns u) (Nat.max (turns u) m) L (Nat.le_max_l _ _)).
  pose proof (Nat.mul_le_mono_l m (Nat.max (turns u) m) L (Nat.le_max_r _ _)). lia.
Qed.

(** ** The run *)
Lemma heights_snoc g t tokens n : forall s s' s'', nsteps (parse_step g t tokens) n s s' -> parse_step g t tokens s' = inl s'' ->
  heights g t tokens (S n) s = heights g t tokens n s ++ [length (ps_stack s'')].
Proof.
  induction n as [|n IH]; intros s s' s'' Hn E; inversion Hn as [|? ? s1 ? E1 Hn']; subst.
  - cbn [heights]. rewrite E. reflexivity.
  - specialize (IH _ _ _ Hn' E). cbn [heights] in *. rewrite E1. cbn [app]. f_equal. exact IH.
Qed.
Lemma nsteps_last {S R} (f : S -> S + R) n : forall s s'', nsteps f (Datatypes.S n) s s'' -> exists s', nsteps f n s s' /\ f s' = inl s''.
Proof.
  intros s s'' H. replace (Datatypes.S n) with (n + 1) in H by lia. apply nsteps_split in H as (s' & H1 & H2). exists s'. split; auto.
  inversion H2 as [|? ? ? ? E H3]; subst. inversion H3; subst. exact E.
Qed.

(** At any time of any run: the trees on the stack tell how high it was after each iteration. *)
Theorem C97_heights :
  forall ast g, grammar_from_ast ast = Ok g -> forall hash t, make_tables hash g = Ok t ->
  forall tokens a n c, nsteps (parse_step g t tokens) n (parse_init a) c ->
  exists ts, stacked g t (ps_stack c) ts /\ ps_trace c = flat_map postorder (rev ts) /\ heights g t tokens n (parse_init a) = walks (rev ts) 1.
Proof.
  intros ast g Hg hash t Ht tokens a. destruct (grammar_from_ast_ok _ _ Hg) as (st & _ & W & Hst & _).
  induction n as [|n IH]; intros c Hn.
  - inversion Hn; subst. exists []. split; [constructor|split; reflexivity].
  - destruct (nsteps_last _ _ _ _ Hn) as (c0 & Hn0 & E). destruct (IH _ Hn0) as (ts & Hs & HT & HH).
    rewrite (heights_snoc _ _ _ _ _ _ _ Hn0 E), HH. pose proof (stacked_length _ _ _ _ Hs) as HL.
    destruct (step_cases g _ W Hst hash t Ht tokens (fun _ => []) c0 ts c Hs E) as (top & rest & B & Es & [(q & x & Q1 & _ & _ & Q4 & Q5 & _)|(p & pr & q & u & v & _ & P2 & _ & _ & _ & _ & P7 & P8 & _)]).
    + exists (Leaf x :: ts). split; [exact Q4|]. cbn [rev]. rewrite walks_app, flat_map_app. cbn. rewrite app_nil_r. split; [congruence|].
      pose proof (stacked_length _ _ _ _ Q4) as HL'. rewrite rev_length, HL'. cbn [length]. do 3 f_equal. lia.
    + eexists. split; [exact P7|]. set (k := length (p_syms pr)) in *. cbn [rev]. rewrite walks_app, flat_map_app. cbn [walks flat_map postorder].
      rewrite app_nil_r, walk_node, rev_length. split.
      { rewrite P8, HT. rewrite app_assoc, <- flat_map_app, <- rev_app_distr, firstn_skipn. reflexivity. }
      rewrite app_nil_r, app_assoc. f_equal.
      * rewrite <- (firstn_skipn k ts) at 1. rewrite rev_app_distr, walks_app, rev_length. reflexivity.
      * pose proof (stacked_length _ _ _ _ P7) as HL'. rewrite HL'. cbn [length]. rewrite skipn_length. do 2 f_equal. lia.
Qed.
Print Assumptions C97_heights.

(** An accepted text: the heights are those of the walk through its parse tree, the highest is one
    more than the tree needs, and that is bounded by how often the tree turns away from its first
    subtrees, whatever its size. *)
Theorem C97_accepted :
  forall ast g st, grammar_from_ast ast = Ok g -> find ap_start ast = Some st -> eof_free g -> start_fresh g ->
  forall hash t, make_tables hash g = Ok t ->
  forall tokens w ps, ended tokens w -> parse_impl g t tokens = Ok ps ->
  exists tr a n c, parse_tree g (ap_name st) w tr /\ ps = postorder tr /\ nth_error tokens 0 = Some a /\
    nsteps (parse_step g t tokens) n (parse_init a) c /\ parse_step g t tokens c = inr (Ok ps) /\
    heights g t tokens n (parse_init a) = walk tr 1 /\ highest (heights g t tokens n (parse_init a)) = 1 + need tr /\
    need tr <= 1 + (longest g - 1) * turns tr.
Proof.
  intros ast g st Hg Hs Heof Hf hash t Ht tokens w ps Hend Hp.
  destruct (C29_soundness _ _ _ Hg Hs Heof Hf _ _ Ht _ _ _ Hend Hp) as (tr & Htr & Eps & _).
  destruct (grammar_from_ast_ok _ _ Hg) as (s' & Hs' & W & Hst & _). rewrite Hs in Hs'. injection Hs' as <-.
  pose proof (tables_auto g _ W Hst hash t Ht) as A.
  destruct (inv_init g t tokens w Hend) as (a & tl & Et & _).
  destruct (run_of g t tokens a tl Et) as (n & c & Hn & Hc); [congruence|]. rewrite Hp in Hc.
  destruct (C97_heights _ _ Hg _ _ Ht _ _ _ _ Hn) as (ts & HS & HT & HH).
  pose proof (step_outcome g t A tokens c ts HS) as O. rewrite Hc in O. inversion O as [| |q s d E1 E2 E3 E4 E5| |]; subst.
  rewrite E1 in HS. destruct (back g t A d _ _ _ _ _ HS E4) as (pr & q' & s2 & k' & Hp0 & Hd & Esk & HS2 & Hm & Hk').
  rewrite (wg_prod0 _ _ W) in Hp0. injection Hp0 as <-. destruct E3 as (pr & Hp0 & ->). rewrite (wg_prod0 _ _ W) in Hp0. injection Hp0 as <-. cbn [p_syms length] in *.
  assert (s2 = []) as ->.
  { inversion HS2 as [|q0 q1 s0 ts0 tr0 x H0 Htr0 Ho Hr]; subst; auto. exfalso. destruct Htr0 as (_ & _ & Hpar & _).
    destruct (Hpar 0 k' _ Hk' (wg_prod0 _ _ W)) as (p1 & d1 & k1 & _ & (pr1 & Hp1 & Hx1)).
    apply (Hf pr1 (nth_error_In _ _ Hp1)). rewrite Hst. eapply nth_error_In, Hx1. }
  assert (exists u, ts = [u]) as [u ->].
  { pose proof (stacked_length _ _ _ _ HS2) as L. rewrite skipn_length in L. cbn [length] in L. destruct ts as [|u [|]]; cbn [length] in *; try lia. eauto. }
  assert (u = tr) as ->.
  { cbn in Hm. injection Hm as Hm. apply (post_inj g); [pose proof (stacked_ok _ _ _ _ HS) as F; inversion F; auto|apply Htr|rewrite Hm; symmetry; apply Htr|].
    cbn [rev app flat_map] in HT. rewrite app_nil_r in HT. congruence. }
  cbn [rev app walks] in HH. rewrite app_nil_r in HH.
  exists tr, a, n, c. split; auto. split; [congruence|]. split; [reflexivity|]. split; auto. split; [rewrite Hc; congruence|]. split; auto.
  split; [rewrite HH; apply need_walk|]. apply need_turns, Htr.
Qed.
Print Assumptions C97_accepted.

(** ** Recursion at the start of the bodies only *)
Section First.
  Variables (g : grammar) (start : str).
  Hypothesis W : wf_grammar g start.
  Hypothesis Hst : g_start g = aug_name start.
  Variables (hash : list item -> N) (t : tables).
  Hypothesis Ht : make_tables hash g = Ok t.
  Hypothesis Hf : start_fresh g.
  Variable rank : str -> nat.
  Hypothesis HR : first_recursive rank g.
  Let A : auto g t := tables_auto g start W Hst hash t Ht.

  (** A rule that begins in a state is there for the start, or for a rule of higher rank that has begun before. *)
  Lemma first_begins i p d : grounded g t i p d -> forall pr, nth_error (g_prods g) p = Some pr -> d = 0 ->
    (st t i 0 0 0 /\ rank (p_name pr) <= rank (g_start g)) \/
    (exists p' d' k' pr', st t i p' (S d') k' /\ nth_error (g_prods g) p' = Some pr' /\ S d' < length (p_syms pr') /\ rank (p_name pr) < rank (p_name pr')).
  Proof using W Hst HR.
    induction 1 as [p d k H|H|p d q pq G IH Hs Hq]; intros pr Hp Hd; [discriminate Hd| |].
    { left. split; auto. rewrite (wg_prod0 _ _ W) in Hp. injection Hp as <-. rewrite Hst. cbn [p_name]. lia. }
    rewrite Hq in Hp. injection Hp as <-. destruct Hs as (pr' & Hp' & Hx). pose proof (HR _ _ _ _ Hp' Hx) as Hrk. destruct d as [|d].
    - destruct (IH pr' Hp' eq_refl) as [[H1 H2]|(p2 & d2 & k2 & pr2 & H1 & H2 & H3 & H4)]; [left; split; auto; lia|].
      right. exists p2, d2, k2, pr2. split; auto. split; auto. split; auto. lia.
    - right. inversion G as [p0 d0 k H| |]; subst. exists p, d, k, pr'. split; auto. split; auto. split; auto.
      apply nth_error_Some. rewrite Hx. discriminate.
  Qed.
  Lemma first_height n : forall s ts q p d k pr, length s <= n -> stacked g t (q :: s) ts -> st t q p (S d) k -> nth_error (g_prods g) p = Some pr ->
    rank (p_name pr) <= rank (g_start g) /\ length (q :: s) <= 1 + S d + (longest g - 1) * (rank (g_start g) - rank (p_name pr)).
  Proof using W Hst Ht Hf HR.
    induction n as [|n IH]; intros s ts q p d k pr Hn Hs Hi Hp.
    all: destruct (back g t A (S d) _ _ _ _ _ Hs Hi) as (pr0 & q2 & s2 & k2 & Hp0 & Hd & E & H2 & _ & H3).
    all: pose proof (f_equal (@length _) E) as EL; rewrite skipn_length in EL; cbn [length Nat.sub] in EL.
    { lia. }
    rewrite Hp in Hp0. injection Hp0 as <-.
    destruct (first_begins _ _ _ (st_grounded g start W hash t Ht _ _ _ _ H3) _ Hp eq_refl) as [[HB Hr]|(p' & d' & k' & pr' & HB & Hp' & Hd' & Hr)].
    - split; auto. rewrite (left_bottom g start W Hst hash t Ht Hf _ _ _ H2 HB) in EL. cbn [length] in *. generalize ((longest g - 1) * (rank (g_start g) - rank (p_name pr))). intros. lia.
    - destruct (IH s2 _ q2 p' d' k' pr' ltac:(lia) H2 HB Hp') as [J1 J2]. split; [lia|].
      pose proof (longest_ge g pr' (nth_error_In _ _ Hp')) as L.
      pose proof (Nat.mul_le_mono_l (S (rank (g_start g) - rank (p_name pr'))) (rank (g_start g) - rank (p_name pr)) (longest g - 1) ltac:(lia)) as M.
      rewrite Nat.mul_succ_r in M. cbn [length] in *. lia.
  Qed.
  Lemma first_bound s ts : stacked g t s ts -> length s <= 2 + (longest g - 1) * S (rank (g_start g)).
  Proof using W Hst Ht Hf HR.
    intros Hs. pose proof Hs as Hs'. destruct Hs as [|q q' s ts tr x H Htr Ho Hr]; [cbn [length]; generalize ((longest g - 1) * S (rank (g_start g))); intros; lia|].
    destruct Htr as ((p & d & k & Hi) & _). clear H Hr.
    assert (K : exists p d k pr, st t q' p (S d) k /\ nth_error (g_prods g) p = Some pr /\ S d <= length (p_syms pr)).
    { destruct (a_dom _ _ A _ _ _ _ Hi) as (pr & Hp & Hd & _). destruct d as [|d]; [|exists p, d, k, pr; auto].
      destruct (first_begins _ _ _ (st_grounded g start W hash t Ht _ _ _ _ Hi) _ Hp eq_refl) as [[HB _]|(p' & d' & k' & pr' & HB & Hp' & Hd' & _)].
      - discriminate (left_bottom g start W Hst hash t Ht Hf _ _ _ Hs' HB).
      - exists p', d', k', pr'. split; auto. split; auto. lia. }
    clear p d k Hi. destruct K as (p & d & k & pr & Hi & Hp & Hd).
    destruct (first_height _ _ _ _ _ _ _ _ (Nat.le_refl _) Hs' Hi Hp) as [_ J]. pose proof (longest_ge g pr (nth_error_In _ _ Hp)) as L.
    pose proof (Nat.mul_le_mono_l (rank (g_start g) - rank (p_name pr)) (rank (g_start g)) (longest g - 1) ltac:(lia)) as M. rewrite Nat.mul_succ_r. lia.
  Qed.
End First.

(** One number bounds the stack at all times for every input, accepted or not, whatever its length. *)
Theorem C97_first_recursive :
  forall ast g, grammar_from_ast ast = Ok g -> start_fresh g -> forall rank, first_recursive rank g ->
  forall hash t, make_tables hash g = Ok t ->
  forall tokens a n c, nsteps (parse_step g t tokens) n (parse_init a) c -> length (ps_stack c) <= 2 + (longest g - 1) * S (rank (g_start g)).
Proof.
  intros ast g Hg Hf rank HR hash t Ht tokens a n c Hn. destruct (grammar_from_ast_ok _ _ Hg) as (st & _ & W & Hst & _).
  destruct (C97_heights _ _ Hg _ _ Ht _ _ _ _ Hn) as (ts & Hs & _).
  exact (first_bound g _ W Hst hash t Ht Hf rank HR _ _ Hs).
Qed.
Print Assumptions C97_first_recursive.

(** Elsewhere it is not so: no number bounds the stack for the texts of S -> "a" S | "b". *)
Theorem C97_right_recursion_refuted :
  exists g t, tables_of w75r g t /\ forall m, exists tokens w ps a n c, ended tokens w /\ sentence g [83]%N w /\ parse_impl g t tokens = Ok ps /\
    nth_error tokens 0 = Some a /\ nsteps (parse_step g t tokens) n (parse_init a) c /\ m < length (ps_stack c).
Proof.
  destruct C75_right_stack as (g & t & HT & Hr & H). exists g, t. split; auto. intros m. destruct (H m) as (w & c & H1 & H2 & H3 & H4 & H5).
  destruct HT as (Hg & Ht & _).
  assert (F : plain g /\ start_fresh g).
  { clear -Hg. vm_compute in Hg. injection Hg as <-. split; [split; [apply eps_free_b_ok|apply eof_free_b_ok]|apply start_fresh_b_ok]; reflexivity. }
  destruct (C75_exact _ _ _ Hg eq_refl (proj1 F) (proj2 F) (or_introl Hr) _ _ Ht _ _ H1) as (HA & _). destruct (proj2 HA H3) as [ps Hp].
  exists (w ++ [0]), w, ps, (hd 0 w), (S m), c. split; auto. split; auto. split; auto. split; [|split; [exact H4|lia]].
  destruct w as [|x w]; [discriminate H2|reflexivity].
Qed.
Print Assumptions C97_right_recursion_refuted.

(** ** The hypotheses are met: E -> E "+" T | T; T -> "x".  The text x+x+x needs four entries, and so
    does any longer sum: the bound for all of them is 2 + 2 * 2. *)
Example C97_nonvacuous : exists g t st, tables_of w_expr g t /\ find ap_start w_expr = Some st /\ eof_free g /\ start_fresh g /\
  first_recursive (fun A => if eqb A [84]%N then 0 else 1) g /\ longest g = 3 /\
  ended [2; 1; 2; 1; 2; 0] [2; 1; 2; 1; 2] /\ (exists ps, parse_impl g t [2; 1; 2; 1; 2; 0] = Ok ps) /\
  heights g t [2; 1; 2; 1; 2; 0] 11 (parse_init 2) = [2; 2; 2; 3; 4; 4; 2; 3; 4; 4; 2].
Proof.
  destruct (grammar_from_ast w_expr) as [g| |] eqn:Eg; [|vm_compute in Eg; discriminate Eg..].
  destruct (make_tables ehash g) as [t| |] eqn:Et; [|vm_compute in Eg; injection Eg as <-; vm_compute in Et; discriminate Et..].
  eexists g, t, _. split; [apply tables_of_any; auto|]. split; [reflexivity|]. vm_compute in Eg; injection Eg as <-; vm_compute in Et; injection Et as <-.
  split; [apply eof_free_b_ok; reflexivity|]. split; [apply start_fresh_b_ok; reflexivity|]. split.
  { intros p pr i A Hp Hi. cbn [g_prods] in Hp. do 4 (destruct p as [|p]; [injection Hp as <-; cbn [p_syms p_name] in *;
      do 3 (destruct i as [|i]; [try discriminate Hi; injection Hi as <-; vm_compute; lia|]); destruct i; discriminate Hi|]). destruct p; discriminate Hp. }
  split; [reflexivity|]. split; [split; [reflexivity|simpl; intuition discriminate]|]. split; [eexists; vm_compute; reflexivity|vm_compute; reflexivity].
Qed.
