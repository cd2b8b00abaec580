(** Property C74: alternatives that begin in the same way. *)
From Verif Require Import Base Grammar GrammarSpec GrammarProofs GrammarCheck First FirstProofs Item ItemSpec ItemProofs ItemPlain
  Table TableSpec MergeProofs TableProofs TableFacts Witness PropsGrammar PropsTable Parse ParseSpec ParseCheck TreeFacts Auto ParseProofs
  ParseTerm ParseCycle ParseComplete PropsParse ReportSpec PropsReport CommonSpec.

Local Ltac compute_ok := vm_compute; reflexivity.
Local Ltac open Eg Et := vm_compute in Eg; injection Eg as <-; vm_compute in Et; injection Et as <-.
Local Ltac wf_ok Eg := vm_compute in Eg; injection Eg as <-;
  split; [split; [apply eps_free_b_ok|apply eof_free_b_ok]|apply start_fresh_b_ok]; reflexivity.

Section Common.
  Variables (ast : list aprod) (g : grammar) (start : str).
  Hypothesis Hg : grammar_from_ast ast = Ok g.
  Hypothesis W : wf_grammar g start.
  Hypothesis Hst : g_start g = aug_name start.
  Hypothesis He : eps_free g.
  Variables (hash : list item -> N) (t : tables).
  Hypothesis Ht : make_tables hash g = Ok t.

  (** All rules of a name after a dot are in the state. *)
  Lemma st_next i p d k q pq : st t i p d k -> sym_at g p d (SNon (p_name pq)) -> nth_error (g_prods g) q = Some pq -> exists k', st t i q 0 k'.
  Proof using W He Ht.
    intros Hk Hs Hq. destruct (make_tables_built _ _ _ _ W Ht) as (lr0 & m & B). destruct (st_lr g _ W hash t _ _ _ _ _ _ B Hk) as (I & HI & Hk' & Hi & _).
    destruct (items_gen g _ W) as [(i0 & C' & _ & _ & _ & _ & _ & HG)|[H _]]; [|destruct (H _ (b_items _ _ _ _ _ B))].
    destruct (HG I HI _ _ _ Hk') as [_ H1]. destruct (H1 _ Hs) as (_ & a & Ha & s & Es & Hin).
    destruct (first_at_nonempty g _ W He _ _ _ _ _ Ha Es) as [y Hy].
    destruct (proj1 (get_token_idx_In g y) (Hin y Hy)) as [k' Ek]. apply tok_idx in Ek.
    exists k'. apply Hi, (lr_closed g _ HI).
    refine (clo_rule g (F_code g) I p d k a q pq y k' (clo_base _ _ _ _ _ _ Hk') Hs Hq Ha (ex_intro _ s (conj Es Hy)) Ek).
  Qed.

  (** Where two items have the same terminal after the dot, there is no shift. *)
  Lemma no_shift i p d k p' d' k' x kx j : st t i p d k -> st t i p' d' k' -> sym_at g p d x -> sym_at g p' d' x -> terminal x -> tok g kx x ->
    tbl_get (t_action t) i kx = Some (Shift j) -> (p, d) = (p', d').
  Proof using Hg He Ht.
    intros (s & Hs & Hk) (s' & Hs' & Hk') Hx Hx' Htx Hkx Hj. rewrite Hs in Hs'. injection Hs' as <-.
    destruct (proj1 (C28_transitions_iff _ _ Hg He _ _ Ht i s p d k x Hs Hk Hx) Htx) as (kx' & Hkx' & Hf).
    assert (kx' = kx) as -> by (apply tok_idx in Hkx, Hkx'; congruence). assert (F : found g (F_std g) (has s) x) by (apply Hf; eauto).
    destruct (C26_states_are_lalr _ _ Hg He _ _ Ht) as (H1 & _). destruct (H1 i s Hs) as (I & HI & Hq). apply (found_eq g _ _ x Hq) in F.
    destruct (proj1 (C27_tables_built_iff _ _ Hg He hash) (ex_intro _ t Ht)) as (lr0 & _ & _ & Hw).
    apply (Hw I HI p d p' d' kx); right; exists x; repeat (split; [assumption|]); (split; [|assumption]); [exists k|exists k']; apply Hq; assumption.
  Qed.

  Lemma goto_item i A j : tbl_get (t_goto t) i A = Some j -> exists p d k, st t i p d k /\ sym_at g p d (SNon A).
  Proof using Hg He Ht.
    intros H. destruct (proj2 (C26_entries_justified _ _ Hg He _ _ Ht) _ _ _ H) as (s & p & d & k & Hs & Hk & Hx & _). exists p, d, k. split; auto. exists s. auto.
  Qed.

  (** So no such rule is used. *)
  Lemma trees_common i ts l : moves_all g t i ts l -> forall d p q e pp pq k k' x, nth_error (g_prods g) p = Some pp -> nth_error (g_prods g) q = Some pq -> p <> q ->
    Forall (tree_ok g) ts -> map (root g) ts = map Some (skipn e (p_syms pp)) ->
    firstn d (skipn e (p_syms pp)) = firstn d (skipn e (p_syms pq)) -> nth_error (skipn e (p_syms pp)) d = Some x -> nth_error (skipn e (p_syms pq)) d = Some x -> terminal x ->
    st t i p e k -> st t i q e k' -> False.
  Proof using Hg W Hst He Ht.
    assert (N : forall (l : list sym) e y r, skipn e l = y :: r -> nth_error l e = Some y /\ skipn (S e) l = r).
    { induction l0 as [|z l0 IHl]; intros [|e] y r E; try discriminate; [injection E as -> ->; auto|]. apply (IHl e y r E). }
    pose proof (tables_auto g _ W Hst hash t Ht) as A.
    induction 1 as [i|i tr j ts l Hm _ IH]; intros d p q e pp pq k k' x Hp Hq Hne Ho Hr Ef Hx Hx' Htx Hk Hk'.
    - destruct (skipn e (p_syms pp)) as [|y l] eqn:E; [destruct d; discriminate|discriminate].
    - destruct (skipn e (p_syms pp)) as [|y r] eqn:E; [discriminate|]. cbn [map] in Hr. injection Hr as Hy Hr. inversion Ho as [|? ? Ho1 Ho2]; subst.
      destruct (N _ _ _ _ E) as [Ny Er]. assert (Sy : sym_at g p e y) by (exists pp; auto).
      destruct d as [|d].
      + injection Hx as ->. destruct (skipn e (p_syms pq)) as [|y' r'] eqn:E'; [discriminate|]. injection Hx' as ->. destruct (N _ _ _ _ E') as [Ny' _].
        assert (Sy' : sym_at g q e x) by (exists pq; auto).
        inversion Hm as [i' x' kx j' Htk Hs|i' p' pr ts' l' j' Hp' Hall Hgo]; subst.
        * injection Hy as ->. pose proof (no_shift _ _ _ _ _ _ _ _ _ _ Hk Hk' Sy Sy' Htx Htk Hs) as Eq. congruence.
        * cbn [root] in Hy. rewrite Hp' in Hy. injection Hy as <-. destruct (Htx _ eq_refl).
      + destruct (skipn e (p_syms pq)) as [|y' r'] eqn:E'; [discriminate|]. cbn [firstn] in Ef. injection Ef as <- Ef. destruct (N _ _ _ _ E') as [Ny' Er'].
        assert (Sy' : sym_at g q e y) by (exists pq; auto).
        assert (T : trans g t i y j).
        { inversion Hm as [i' x' kx j' Htk Hs|i' p' pr ts' l' j' Hp' Hall Hgo]; subst.
          - injection Hy as ->. destruct (a_shift _ _ A _ _ _ Hs) as (z & _ & Hz & _ & T). replace y with z; auto. destruct Hz, Htk; congruence.
          - cbn [root] in Hy. rewrite Hp' in Hy. injection Hy as <-. apply (a_goto _ _ A _ _ _ Hgo). }
        destruct T as (_ & _ & _ & T). cbn [nth_error] in Hx, Hx'.
        apply (IH d p q (S e) pp pq k k' x); auto; rewrite ?Er, ?Er'; auto.
  Qed.
  Lemma tree_common tr : forall i j, moves g t i tr j -> tree_ok g tr -> forall p q d x, same_beginning g p q d x -> ~ In p (postorder tr).
  Proof using Hg W Hst He Ht.
    induction tr as [y|p0 ts IH] using tree_ind'; intros i j Hm Ho p q d x Hs Hin; [destruct Hin|]. pose proof (tables_auto g _ W Hst hash t Ht) as A.
    apply tree_ok_node in Ho as (pr & Hp & Hts & Hr). inversion Hm as [|i' p' pr' ts' l' j' Hp' Hall Hgo]; subst. rewrite Hp in Hp'. injection Hp' as <-.
    cbn [postorder] in Hin. apply in_app_or in Hin as [Hin|[->|[]]].
    - clear Hr Hm. revert i Hall Hgo. induction ts as [|tr ts IHl]; intros i Hall Hgo; [destruct Hin|]. inversion Hall as [|i1 tr1 j1 ts1 k1 H1 H2]; subst. inversion IH as [|? ? I1 I2]; subst.
      inversion Hts as [|? ? O1 O2]; subst. cbn [flat_map] in Hin. apply in_app_or in Hin as [Hin|Hin]; [exact (I1 _ _ H1 O1 _ _ _ _ Hs Hin)|].
      clear Hgo. revert Hin. clear IHl H1 O1 I1 IH Hall Hts. revert j1 H2. induction ts as [|tr2 ts IHl]; intros j1 H2 Hin; [destruct Hin|].
      inversion H2 as [|i3 tr3 j3 ts3 k3 H3 H4]; subst. inversion I2 as [|? ? I3 I4]; inversion O2 as [|? ? O3 O4]; subst. cbn [flat_map] in Hin.
      apply in_app_or in Hin as [Hin|Hin]; [exact (I3 _ _ H3 O3 _ _ _ _ Hs Hin)|eapply IHl; eauto].
    - destruct Hs as (Hne & Htx & pp & pq & Ep & Eq & En & Ef & Hx & Hx'). rewrite Hp in Ep. injection Ep as <-.
      destruct (goto_item _ _ _ Hgo) as (p1 & d1 & k1 & Hk1 & Hx1).
      destruct (st_next _ _ _ _ p pr Hk1 Hx1 Hp) as [k Hk]. rewrite En in Hx1. destruct (st_next _ _ _ _ q pq Hk1 Hx1 Eq) as [k' Hk'].
      exact (trees_common _ _ _ Hall d p q 0 pr pq k k' x Hp Eq Hne Hts Hr Ef Hx Hx' Htx Hk Hk').
  Qed.
End Common.

(** ** C74 *)

(** Two alternatives that are the same up to and with some token: whatever the parser accepts, it
    uses neither. *)
Theorem C74_common_refuted :
  forall ast g st, grammar_from_ast ast = Ok g -> find ap_start ast = Some st -> plain g -> start_fresh g ->
  forall hash t, make_tables hash g = Ok t ->
  forall p q d x, same_beginning g p q d x ->
  forall tokens w ps, ended tokens w -> parse_impl g t tokens = Ok ps -> ~ In p ps /\ ~ In q ps.
Proof.
  intros ast g s Hg Hs [He Heof] Hf hash t Ht p q d x Hsb tokens w ps Hend Hps.
  destruct (grammar_from_ast_ok _ _ Hg) as (s' & Hs' & W & Hst & _). rewrite Hs in Hs'. injection Hs' as <-.
  apply (C30_accepts_iff _ _ _ Hg Hs (conj He Heof) Hf _ _ Ht _ _ _ Hend) in Hps as (tr & j & (Ho & Hr & _) & Hm & ->).
  assert (Hsb' : same_beginning g q p d x).
  { destruct Hsb as (Hne & Htx & pp & pq & Ep & Eq & En & Ef & Hx & Hx'). split; [congruence|]. split; [exact Htx|]. exists pq, pp. repeat split; congruence. }
  split; [exact (tree_common ast g _ Hg W Hst He hash t Ht tr _ _ Hm Ho _ _ _ _ Hsb)|exact (tree_common ast g _ Hg W Hst He hash t Ht tr _ _ Hm Ho _ _ _ _ Hsb')].
Qed.
Print Assumptions C74_common_refuted.

(** If a sentence can begin with them there are no tables at all. *)
Theorem C74_start_refuted :
  forall ast g st, grammar_from_ast ast = Ok g -> find ap_start ast = Some st -> eps_free g -> start_fresh g ->
  forall p q x pp b, same_beginning g p q 0 x -> nth_error (g_prods g) p = Some pp -> derives g [SNon (ap_name st)] (SNon (p_name pp) :: b) ->
  forall hash t, make_tables hash g <> Ok t.
Proof.
  intros ast g s Hg Hs He Hf p q x pp b (Hne & Htx & pp' & pq & Ep & Eq & En & _ & Hx & Hx') Hp Hd hash t Ht. rewrite Hp in Ep. injection Ep as <-.
  destruct (grammar_from_ast_ok _ _ Hg) as (s' & Hs' & W & Hst & _). rewrite Hs in Hs'. injection Hs' as <-.
  pose proof (tables_auto g _ W Hst hash t Ht) as A. apply (derives_cons_head g _ _ _ _ He) in Hd.
  assert (G : forall y z, lms g y z -> (exists p d k, st t 0 p d k /\ sym_at g p d y) -> exists p d k, st t 0 p d k /\ sym_at g p d z).
  { induction 1 as [|B y l z (r & Hr & <- & El) _ IH]; auto. intros (p1 & d1 & k1 & Hk1 & Hx1). apply IH. apply In_nth_error in Hr as [n Hn].
    destruct (st_next g _ W He hash t Ht _ _ _ _ n r Hk1 Hx1 Hn) as [k Hk]. exists n, 0, k. split; auto. exists r. rewrite El. auto. }
  destruct (G _ _ Hd) as (p1 & d1 & k1 & Hk1 & Hx1).
  { exists 0, 0, 0. split; [apply (a_init _ _ A)|]. eexists. split; [apply (wg_prod0 _ _ W)|reflexivity]. }
  destruct (st_next g _ W He hash t Ht _ _ _ _ p pp Hk1 Hx1 Hp) as [k Hk]. rewrite En in Hx1. destruct (st_next g _ W He hash t Ht _ _ _ _ q pq Hk1 Hx1 Eq) as [k' Hk'].
  assert (Sp : sym_at g p 0 x) by (exists pp; auto). assert (Sq : sym_at g q 0 x) by (exists pq; auto).
  assert (Hf0 : exists kx j, tok g kx x /\ tbl_get (t_action t) 0 kx = Some (Shift j)).
  { destruct Hk as (s0 & Hs0 & Hk). destruct (C26_states_are_lalr _ _ Hg He _ _ Ht) as (H1 & _). destruct (H1 0 s0 Hs0) as (I & HI & Hq).
    destruct (a_init _ _ A) as (s1 & Hs1 & H0). rewrite Hs0 in Hs1. injection Hs1 as <-. apply Hq in H0 as (I' & HI' & Hc & H0).
    (* only the initial state has the item of production 0 with the dot in front *)
    assert (U : forall J, lr_state g (F_std g) J -> (exists k, J 0 0 k) -> J = clo g (F_std g) init_set).
    { intros J [|J' y HJ' Hne'] [l Hl]; auto. exfalso. apply clo_kernel in Hl as [(d' & E & _)|(_ & p' & d' & l' & pr & _ & Hpr & (pr' & Hpr' & Hy))]; [discriminate|].
      rewrite (wg_prod0 _ _ W) in Hpr. injection Hpr as <-. cbn [p_name] in Hy. apply (Hf pr' (nth_error_In _ _ Hpr')). rewrite Hst. eapply nth_error_In, Hy. }
    assert (EI : I = clo g (F_std g) init_set) by (apply U; auto; apply Hc; eauto).
    assert (HqI : set_eq (has s0) I).
    { intros u v l. rewrite (Hq u v l). split; [|intros H; exists I; split; auto; split; auto; intros a c; reflexivity].
      intros (J & HJ & HcJ & HJl). rewrite (U J HJ) in HJl; [rewrite EI; exact HJl|]. apply HcJ. rewrite EI. exists 0. apply clo_base. split; auto. }
    assert (F : found g (F_std g) (has s0) x).
    { exists (clo g (F_std g) (move g I x)). split; [apply lr_goto; auto; exists p, 1, k, 0; split; auto; split; auto; apply HqI, Hk|]. left. exact (clo_eq g _ _ (move_eq g _ _ x HqI)). }
    destruct (proj1 (C28_transitions_iff _ _ Hg He _ _ Ht 0 s0 p 0 k x Hs0 Hk Sp) Htx) as (kx & Hkx & Hj). destruct (proj2 Hj F) as [j Ej]. eauto. }
  destruct Hf0 as (kx & j & Hkx & Hj). pose proof (no_shift ast g Hg He hash t Ht _ _ _ _ _ _ _ _ _ _ Hk Hk' Sp Sq Htx Hkx Hj) as E. congruence.
Qed.
Print Assumptions C74_start_refuted.

(** The way out: with every terminal in one place only - a rule of its own, say - all conflict-free
    grammars get tables. *)
Theorem C74_one_place_partial :
  forall ast g, grammar_from_ast ast = Ok g -> eps_free g -> one_place g ->
  forall hash lr0, items g = Ok lr0 -> collision_free hash lr0 ->
  (forall I, lr_state g (F_std g) I -> ~ conflict g (lalr_of g (F_std g) I)) -> exists t, make_tables hash g = Ok t.
Proof. intros ast g Hg He Ho hash lr0 El Hc H. eapply C27_lalr_grammar_gets_tables_partial; eauto. Qed.
Print Assumptions C74_one_place_partial.

(** S -> u A p | v A q | w B r | x B s | z; A -> c D; B -> f D; D -> d | d e: tables are built, z is
    accepted, but "u c d p" is not (neither rule of D can be used). *)
Definition w74 : list aprod :=
  [PS 83 [[T 117; V 65; T 112]; [T 118; V 65; T 113]; [T 119; V 66; T 114]; [T 120; V 66; T 115]; [T 122]];
   P 65 [[T 99; V 68]]; P 66 [[T 102; V 68]]; P 68 [[T 100]; [T 100; T 101]]].
Example C74_common_nonvacuous : exists g t p q w, tables_of w74 g t /\ well_formed g /\ same_beginning g p q 0 (SStr [100]%N) /\
  (exists tokens v ps, ended tokens v /\ parse_impl g t tokens = Ok ps) /\ sentence g [83]%N w /\ (forall ps, parse_impl g t (w ++ [0]) <> Ok ps).
Proof.
  destruct (grammar_from_ast w74) as [g| |] eqn:Eg; [|vm_compute in Eg; discriminate Eg..].
  destruct (make_tables ehash g) as [t| |] eqn:Et; [|vm_compute in Eg; injection Eg as <-; vm_compute in Et; discriminate Et..].
  assert (Hwf : well_formed g) by wf_ok Eg.
  set (idx := fun c : N => match get_token_idx g (SStr [c]) with Some k => k | _ => 0 end).
  exists g, t, 8, 9, [idx 117%N; idx 99%N; idx 100%N; idx 112%N].
  split; [apply tables_of_any; auto|]. split; [exact Hwf|]. clear Hwf. subst idx. open Eg Et.
  split; [split; [discriminate|]; split; [intros n; discriminate|]; eexists _, _; repeat split|].
  split; [eexists [13; 0], [13], _; split; [split; [reflexivity|vm_compute; intros [H|[]]; discriminate H]|vm_compute; reflexivity]|].
  split.
  - apply (tree_sentence _ _ _ (Node 1 [Leaf (SStr [117]%N); Node 6 [Leaf (SStr [99]%N); Node 8 [Leaf (SStr [100]%N)]]; Leaf (SStr [112]%N)])). compute_ok.
  - intros ps H. vm_compute in H. discriminate H.
Qed.

(** The list with separators, L -> x "," L | x, never gets tables ... *)
Definition w74_list : list aprod := [PS 76 [[T 120; T 44; V 76]; [T 120]]].
Example C74_start_nonvacuous : exists g p q pp b, grammar_from_ast w74_list = Ok g /\ well_formed g /\ same_beginning g p q 0 (SStr [120]%N) /\
  nth_error (g_prods g) p = Some pp /\ derives g [SNon [76]%N] (SNon (p_name pp) :: b).
Proof.
  destruct (grammar_from_ast w74_list) as [g| |] eqn:Eg; [|vm_compute in Eg; discriminate Eg..].
  assert (Hwf : well_formed g) by wf_ok Eg. vm_compute in Eg. injection Eg as <-. eexists _, 1, 2, _, []. split; [reflexivity|]. split; [exact Hwf|].
  split; [split; [discriminate|]; split; [intros n; discriminate|]; eexists _, _; repeat split|]. split; [reflexivity|]. constructor.
Qed.

(** ... but it does when both tokens have rules of their own: L -> X C L | X; X -> x; C -> ",". *)
Definition w74_list' : list aprod := [PS 76 [[V 88; V 67; V 76]; [V 88]]; P 88 [[T 120]]; P 67 [[T 44]]].
Example C74_one_place_nonvacuous : exists g lr0, grammar_from_ast w74_list' = Ok g /\ eps_free g /\ one_place g /\ items g = Ok lr0 /\ collision_free ehash lr0 /\
  (forall I, lr_state g (F_std g) I -> ~ conflict g (lalr_of g (F_std g) I)).
Proof.
  destruct (grammar_from_ast w74_list') as [g| |] eqn:Eg; [|vm_compute in Eg; discriminate Eg..].
  destruct (items g) as [lr0| |] eqn:El; [|vm_compute in Eg; injection Eg as <-; vm_compute in El; discriminate El..].
  exists g, lr0. split; auto. destruct (grammar_from_ast_ok _ _ Eg) as (st & _ & W & _).
  assert (He : eps_free g) by (vm_compute in Eg; injection Eg as <-; apply eps_free_b_ok; reflexivity).
  split; auto. split; [|split; auto; split; [apply ehash_free|]].
  - assert (H : forall p d x, terminal x -> sym_at g p d x -> p = 3 /\ d = 0 /\ x = SStr [120]%N \/ p = 4 /\ d = 0 /\ x = SStr [44]%N).
    { vm_compute in Eg. injection Eg as <-. intros p d x Hx (pr & Hp & Hd). cbn [g_prods] in Hp.
      do 5 (destruct p as [|p]; [injection Hp as <-; cbn [p_syms] in Hd; do 3 (destruct d as [|d]; [try discriminate Hd; injection Hd as <-; try (destruct (Hx _ eq_refl)); auto|]); destruct d; discriminate Hd|]).
      destruct p; discriminate Hp. }
    intros p d p' d' x Hx H1 H2. destruct (H _ _ _ Hx H1) as [(-> & -> & ->)|(-> & -> & ->)], (H _ _ _ Hx H2) as [(-> & -> & E)|(-> & -> & E)]; auto; discriminate E.
  - apply (conflict_free_b_ok g _ lr0 W He El). vm_compute in Eg. injection Eg as <-. vm_compute in El. injection El as <-. reflexivity.
Qed.
