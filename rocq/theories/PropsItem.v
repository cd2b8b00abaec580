(** Properties C22-C24 and C34: closure, goto, the canonical collection, undefined names. *)
From Verif Require Import Base Grammar GrammarSpec GrammarProofs First FirstProofs GrammarCheck
  Item ItemSpec ItemProofs ItemPlain OutcomeProofs Table.

Local Ltac compute_ok := vm_compute; reflexivity.

(** A grammar for the examples: S -> C C, C -> "c" C | "d". *)
Definition exi_ast : list aprod :=
  [AProd [83] [ABody [INon [67]; INon [67]] []] true [];
   AProd [67] [ABody [IStr [99]; INon [67]] []; ABody [IStr [100]] []] false []]%N.
(** One using an undefined name: S -> C U, C -> "c". *)
Definition exi_undef_ast : list aprod :=
  [AProd [83] [ABody [INon [67]; INon [85]] []] true []; AProd [67] [ABody [IStr [99]] []] false []]%N.
(** One using a left-recursive name after another, and an undefined one:
    S -> C E U, C -> "c", E -> E "e" | "e". *)
Definition exi_left_ast : list aprod :=
  [AProd [83] [ABody [INon [67]; INon [69]; INon [85]] []] true []; AProd [67] [ABody [IStr [99]] []] false [];
   AProd [69] [ABody [INon [69]; IStr [101]] []; ABody [IStr [101]] []] false []]%N.

(** ** C22 *)

(** The closure is the least one, for FIRST as the code computes it, on every grammar; it is
    computed exactly when every FIRST set needed is, and the loop runs for ever only if one of
    these does. *)
Theorem C22_closure_least :
  forall ast g, grammar_from_ast ast = Ok g -> forall s, wf_set s ->
  (forall s', closure g s = Ok s' -> wf_set s' /\ represents s' (clo g (F_code g) (has s))) /\
  ((exists s', closure g s = Ok s') <-> ready g (clo g (F_code g) (has s))) /\
  (closure g s = Diverge -> exists p d k a B, clo g (F_code g) (has s) p d k /\
     sym_at g p d (SNon B) /\ nth_error (g_tokens g) k = Some a /\
     forall fuel, first_with fuel g (rest g p (S d) ++ [a]) = Diverge).
Proof.
  intros ast g Hg s Hs. destruct (grammar_from_ast_ok _ _ Hg) as (st & _ & W & _).
  pose proof (closure_spec g _ W s Hs) as H. split; [|split].
  - intros s' E. destruct H as [(s1 & E1 & H1 & H2 & _)|[H1 _]]; [|destruct (H1 _ E)].
    rewrite E in E1. injection E1 as <-. auto.
  - destruct H as [(s1 & E1 & H1 & H2 & H3)|[H1 H2]]; split; eauto.
    + intros [s' E]. destruct (H1 _ E).
    + tauto.
  - intros E. destruct (closure_div_spec g _ W s Hs E) as (p & d & k & a & B & H1 & H2 & H3 & H4).
    exists p, d, k, a, B. repeat split; auto. apply first_div_all, H4.
Qed.
Print Assumptions C22_closure_least.

(** On epsilon-free grammars it is the standard LR(1) closure. *)
Theorem C22_closure_standard :
  forall ast g, grammar_from_ast ast = Ok g -> eps_free g -> forall s s', wf_set s -> closure g s = Ok s' ->
  wf_set s' /\ represents s' (clo g (F_std g) (has s)).
Proof.
  intros ast g Hg He s s' Hs E. destruct (grammar_from_ast_ok _ _ Hg) as (st & _ & W & _).
  destruct (closure_spec g _ W s Hs) as [(s1 & E1 & H1 & H2 & H3)|[H1 _]]; [|destruct (H1 _ E)].
  rewrite E in E1. injection E1 as <-. split; auto. intros p d k. rewrite (H2 p d k). apply (clo_std g _ W He). exact H3.
Qed.
Print Assumptions C22_closure_standard.

Example C22_nonvacuous : exists g s, grammar_from_ast exi_ast = Ok g /\ eps_free g /\ wf_set initial /\
  closure g initial = Ok s /\ has s 0 0 0 /\ has s 3 0 2 /\ length s = 4.
Proof.
  eexists _, _. split; [compute_ok|]. split; [apply eps_free_b_ok; reflexivity|].
  split; [apply initial_wf|]. split; [compute_ok|]. split; [|split].
  - eexists. split; [left; reflexivity|left; reflexivity].
  - eexists. split; [do 3 right; left; reflexivity|]. simpl. tauto.
  - reflexivity.
Qed.
Example C22_diverge_nonvacuous : exists g, grammar_from_ast exi_left_ast = Ok g /\ closure g initial = Diverge.
Proof. eexists. split; compute_ok. Qed.

(** ** C23 *)
Theorem C23_goto :
  forall ast g, grammar_from_ast ast = Ok g -> forall s x, wf_set s ->
  (forall p d k, has s p d k -> p < length (g_prods g)) ->
  (forall s', goto g s x = Ok s' -> wf_set s' /\ represents s' (clo g (F_code g) (move g (has s) x))) /\
  ((exists s', goto g s x = Ok s') <-> ready g (clo g (F_code g) (move g (has s) x))) /\
  (goto g s x = Diverge -> exists p d k a B, clo g (F_code g) (move g (has s) x) p d k /\
     sym_at g p d (SNon B) /\ nth_error (g_tokens g) k = Some a /\
     forall fuel, first_with fuel g (rest g p (S d) ++ [a]) = Diverge).
Proof.
  intros ast g Hg s x Hs Hp. destruct (grammar_from_ast_ok _ _ Hg) as (st & _ & W & _).
  assert (Hp' : forall p d k, has s p d k -> exists pr, nth_error (g_prods g) p = Some pr).
  { intros p d k H. destruct (nth_error (g_prods g) p) as [pr|] eqn:E; eauto.
    apply nth_error_None in E. specialize (Hp _ _ _ H). lia. }
  pose proof (goto_spec g _ W s x Hs Hp') as H. split; [|split].
  - intros s' E. destruct H as [(s1 & E1 & H1 & H2 & _)|[H1 _]]; [|destruct (H1 _ E)].
    rewrite E in E1. injection E1 as <-. auto.
  - destruct H as [(s1 & E1 & H1 & H2 & H3)|[H1 H2]]; split; eauto.
    + intros [s' E]. destruct (H1 _ E).
    + tauto.
  - intros E. destruct (goto_div g _ W s x Hs Hp' E) as (p & d & k & a & B & H1 & H2 & H3 & H4).
    exists p, d, k, a, B. repeat split; auto. apply first_div_all, H4.
Qed.
Print Assumptions C23_goto.

Theorem C23_goto_standard :
  forall ast g, grammar_from_ast ast = Ok g -> eps_free g -> forall s x s', wf_set s ->
  (forall p d k, has s p d k -> p < length (g_prods g)) -> goto g s x = Ok s' ->
  wf_set s' /\ represents s' (clo g (F_std g) (move g (has s) x)).
Proof.
  intros ast g Hg He s x s' Hs Hp E. destruct (C23_goto _ _ Hg s x Hs Hp) as (H1 & H2 & _).
  destruct (H1 _ E) as [Hw Hr]. split; auto.
  destruct (grammar_from_ast_ok _ _ Hg) as (st & _ & W & _).
  intros p d k. rewrite (Hr p d k). apply (clo_std g _ W He), H2. eauto.
Qed.
Print Assumptions C23_goto_standard.

Example C23_nonvacuous : exists g s0 s, grammar_from_ast exi_ast = Ok g /\ closure g initial = Ok s0 /\
  wf_set s0 /\ (forall p d k, has s0 p d k -> p < length (g_prods g)) /\
  goto g s0 (SNon [67]%N) = Ok s /\ has s 1 1 0 /\ has s 2 0 0 /\ length s = 3.
Proof.
  destruct (grammar_from_ast exi_ast) as [g| |] eqn:Eg; [|vm_compute in Eg; discriminate Eg..].
  destruct (closure g initial) as [s0| |] eqn:E0; [|vm_compute in Eg; injection Eg as <-; vm_compute in E0; discriminate E0..].
  destruct (goto g s0 (SNon [67]%N)) as [s| |] eqn:Es;
    [|vm_compute in Eg; injection Eg as <-; vm_compute in E0; injection E0 as <-; vm_compute in Es; discriminate Es..].
  exists g, s0, s. split; auto. split; auto. split.
  { destruct (C22_closure_least _ _ Eg _ initial_wf) as (H & _). apply (H s0 E0). }
  vm_compute in Eg; injection Eg as <-. vm_compute in E0; injection E0 as <-. vm_compute in Es; injection Es as <-.
  split.
  { intros p d k (las & Hin & _). simpl in Hin. simpl.
    repeat (destruct Hin as [Hin|Hin]; [injection Hin as <- <- <-; lia|]). destruct Hin. }
  split; [reflexivity|]. split; [|split; [|reflexivity]].
  - eexists. split; [left; reflexivity|left; reflexivity].
  - eexists. split; [right; left; reflexivity|left; reflexivity].
Qed.

(** ** C24 *)

(** The collection has no duplicates, starts with the start state and consists of exactly the
    states reachable from it. *)
Theorem C24_collection :
  forall ast g, grammar_from_ast ast = Ok g -> forall C, items g = Ok C ->
  (exists i0 l, C = i0 :: l /\ represents i0 (clo g (F_code g) init_set)) /\
  NoDup C /\
  (forall s, In s C -> wf_set s /\ exists I, lr_state g (F_code g) I /\ represents s I) /\
  (forall I, lr_state g (F_code g) I -> exists s, In s C /\ represents s I).
Proof.
  intros ast g Hg C HC. destruct (grammar_from_ast_ok _ _ Hg) as (st & _ & W & _).
  destruct (items_gen g _ W) as [(i0 & C' & E & _ & Hr & ((l & El) & Hn & Hs) & Ha & _)|[H _]]; [|destruct (H _ HC)].
  rewrite HC in E. injection E as <-. split; [eauto|]. split; [auto|]. split; [|auto].
  intros s Hin. exact (Hs s Hin).
Qed.
Print Assumptions C24_collection.

(** On epsilon-free grammars: the canonical LR(1) collection for the standard FIRST. *)
Theorem C24_collection_standard :
  forall ast g, grammar_from_ast ast = Ok g -> eps_free g -> forall C, items g = Ok C ->
  (exists i0 l, C = i0 :: l /\ represents i0 (clo g (F_std g) init_set)) /\
  NoDup C /\
  (forall s, In s C -> wf_set s /\ exists I, lr_state g (F_std g) I /\ represents s I) /\
  (forall I, lr_state g (F_std g) I -> exists s, In s C /\ represents s I).
Proof.
  intros ast g Hg He C HC. destruct (grammar_from_ast_ok _ _ Hg) as (st & _ & W & _).
  destruct (items_gen g _ W) as [(i0 & C' & E & _ & Hr & ((l & El) & Hn & Hs) & Ha & HG)|[H _]]; [|destruct (H _ HC)].
  rewrite HC in E. injection E as <-. split; [|split; [auto|split]].
  - exists i0, l. split; auto. intros p d k. rewrite (Hr p d k). apply (clo_std g _ W He). apply HG. constructor.
  - intros s Hin. destruct (Hs s Hin) as (Hw & I & HI & HrI). split; auto.
    destruct (lr_code_std g _ W He HG I HI) as (J & HJ & E). exists J. split; auto.
    intros p d k. rewrite (HrI p d k). apply E.
  - intros I HI. destruct (lr_std_code g _ W He HG I HI) as (J & HJ & E). destruct (Ha J HJ) as (s & Hin & Hr').
    exists s. split; auto. intros p d k. rewrite (Hr' p d k). symmetry. apply E.
Qed.
Print Assumptions C24_collection_standard.

(** When the collection is computed: for every non-terminal B at some position of a reachable
    production, B has productions and every name leftmost in a string derivable from the symbol
    after B is defined and not left-recursive. *)
Theorem C24_returns_iff :
  forall ast g, grammar_from_ast ast = Ok g -> eps_free g ->
  (exists C, items g = Ok C) <->
  forall p pr d B, reachable g p -> nth_error (g_prods g) p = Some pr -> nth_error (p_syms pr) d = Some (SNon B) ->
    has_rule g B /\
    forall x, nth_error (p_syms pr) (S d) = Some x ->
    forall A b, derives g [x] (SNon A :: b) -> has_rule g A /\ ~ left_recursive g A.
Proof.
  intros ast g Hg He. destruct (grammar_from_ast_ok _ _ Hg) as (st & _ & W & _).
  rewrite (items_ok_iff g _ W He). unfold computable. split; intros H p pr d B Hr Hp Hd.
  - destruct (H _ _ _ _ Hr Hp Hd) as [H1 H2]. split; auto. intros x Hx A b Hb. apply (H2 x Hx). eapply derives_cons_head; eauto.
  - destruct (H _ _ _ _ Hr Hp Hd) as [H1 H2]. split; auto. intros x Hx A Hl. apply lms_derives in Hl as [b Hb]. eauto.
Qed.
Print Assumptions C24_returns_iff.

(** It runs for ever only if computing some FIRST set needed does (on every grammar). *)
Theorem C24_terminates :
  forall ast g, grammar_from_ast ast = Ok g -> items g = Diverge ->
  exists I p d k a B, lr_state g (F_code g) I /\ I p d k /\ sym_at g p d (SNon B) /\
    nth_error (g_tokens g) k = Some a /\ forall fuel, first_with fuel g (rest g p (S d) ++ [a]) = Diverge.
Proof.
  intros ast g Hg H. destruct (grammar_from_ast_ok _ _ Hg) as (st & _ & W & _).
  destruct (items_div g _ W H) as (I & p & d & k & a & B & H1 & H2 & H3 & H4 & H5).
  exists I, p, d, k, a, B. repeat split; auto. apply first_div_all, H5.
Qed.
Print Assumptions C24_terminates.

Example C24_nonvacuous : exists g C, grammar_from_ast exi_ast = Ok g /\ eps_free g /\ items g = Ok C /\ length C = 10.
Proof.
  eexists _, _. split; [compute_ok|]. split; [apply eps_free_b_ok; reflexivity|]. split; [compute_ok|reflexivity].
Qed.
Example C24_terminates_nonvacuous : exists g, grammar_from_ast exi_left_ast = Ok g /\ items g = Diverge.
Proof. eexists. split; compute_ok. Qed.

(** ** C34 *)

(** A grammar with an undefined non-terminal in a reachable production never gets tables. *)
Theorem C34_undefined_no_tables :
  forall ast g, grammar_from_ast ast = Ok g -> eps_free g ->
  forall p pr B, reachable g p -> nth_error (g_prods g) p = Some pr -> In (SNon B) (p_syms pr) -> ~ has_rule g B ->
  forall hash t, make_tables hash g <> Ok t.
Proof.
  intros ast g Hg He p pr B Hr Hp Hin Hn hash t E.
  apply In_nth_error in Hin as [d Hd]. unfold make_tables in E.
  destruct (items g) as [C| |] eqn:EC; simpl in E; try discriminate.
  apply Hn. apply (proj1 (C24_returns_iff _ _ Hg He) (ex_intro _ C EC) _ _ _ _ Hr Hp Hd).
Qed.
Print Assumptions C34_undefined_no_tables.

(** Whatever the hash: it panics looking up a name, or FIRST recurses for ever. *)
Theorem C34_undefined_ends :
  forall ast g, grammar_from_ast ast = Ok g -> eps_free g ->
  forall p pr B, reachable g p -> nth_error (g_prods g) p = Some pr -> In (SNon B) (p_syms pr) -> ~ has_rule g B ->
  forall hash, make_tables hash g = Panic PUnwrapNone \/
    (make_tables hash g = Diverge /\ exists q pq d C x A b, reachable g q /\ nth_error (g_prods g) q = Some pq /\
       nth_error (p_syms pq) d = Some (SNon C) /\ nth_error (p_syms pq) (S d) = Some x /\ derives g [x] (SNon A :: b) /\ left_recursive g A).
Proof.
  intros ast g Hg He p pr B Hr Hp Hin Hn hash. pose proof (C34_undefined_no_tables _ _ Hg He _ _ _ Hr Hp Hin Hn hash) as H.
  destruct (grammar_from_ast_ok _ _ Hg) as (st & _ & W & _).
  unfold make_tables in *. destruct (items g) as [C|q|] eqn:EC; cbn [bind] in *.
  - exfalso. apply In_nth_error in Hin as [d Hd]. apply Hn. apply (proj1 (C24_returns_iff _ _ Hg He) (ex_intro _ C EC) _ _ _ _ Hr Hp Hd).
  - left. f_equal. apply (items_panic_undefined g _ W He q EC).
  - right. split; auto. destruct (items_div_left g _ W He EC) as (p1 & pr1 & d1 & B1 & x1 & A & H1 & H2 & H3 & H4 & H5 & H6).
    apply lms_derives in H5 as [b Hb]. exists p1, pr1, d1, B1, x1, A, b. auto 10.
Qed.
Print Assumptions C34_undefined_ends.

(** That it panics is false in general: FIRST may overflow the stack before. *)
Theorem C34_undefined_panics_refuted :
  exists ast g p pr B, grammar_from_ast ast = Ok g /\ eps_free g /\
    reachable g p /\ nth_error (g_prods g) p = Some pr /\ In (SNon B) (p_syms pr) /\ ~ has_rule g B /\
    forall hash, make_tables hash g = Diverge.
Proof.
  eexists exi_left_ast, _, 1, _, [85]%N. split; [compute_ok|]. split; [apply eps_free_b_ok; reflexivity|].
  split; [|split; [reflexivity|]].
  - eapply (reach_next _ 0 _ 1); [constructor|reflexivity| |reflexivity]. left; reflexivity.
  - split; [simpl; tauto|]. split.
    + intros (q & Hq & E). simpl in Hq. repeat (destruct Hq as [<-|Hq]; [discriminate E|]). destruct Hq.
    + intros hash. unfold make_tables.
      match goal with |- context [items ?g] => assert (E : items g = Diverge) by compute_ok; rewrite E end. reflexivity.
Qed.
Print Assumptions C34_undefined_panics_refuted.

(** It does panic, and in the [unwrap] of the look-up of the name, when no symbol following a non-terminal in a reachable production leads to a
    left-recursive name. *)
Theorem C34_undefined_panics_partial :
  forall ast g, grammar_from_ast ast = Ok g -> eps_free g ->
  (forall p pr d B x A b, reachable g p -> nth_error (g_prods g) p = Some pr ->
     nth_error (p_syms pr) d = Some (SNon B) -> nth_error (p_syms pr) (S d) = Some x ->
     derives g [x] (SNon A :: b) -> ~ left_recursive g A) ->
  forall p pr B, reachable g p -> nth_error (g_prods g) p = Some pr -> In (SNon B) (p_syms pr) -> ~ has_rule g B ->
  forall hash, make_tables hash g = Panic PUnwrapNone.
Proof.
  intros ast g Hg He HL p pr B Hr Hp Hin Hn hash.
  pose proof (C34_undefined_no_tables _ _ Hg He _ _ _ Hr Hp Hin Hn hash) as H.
  destruct (grammar_from_ast_ok _ _ Hg) as (st & _ & W & _).
  unfold make_tables in *. destruct (items g) as [C|q|] eqn:EC; simpl in *.
  - exfalso. apply In_nth_error in Hin as [d Hd].
    apply Hn. apply (proj1 (C24_returns_iff _ _ Hg He) (ex_intro _ C EC) _ _ _ _ Hr Hp Hd).
  - f_equal. apply (items_panic_undefined g _ W He q EC).
  - exfalso. destruct (items_div_left g _ W He EC) as (p1 & pr1 & d1 & B1 & x1 & A & H1 & H2 & H3 & H4 & H5 & H6).
    apply lms_derives in H5 as [b Hb]. eapply HL; eauto.
Qed.
Print Assumptions C34_undefined_panics_partial.

Example C34_nonvacuous : exists g p pr B, grammar_from_ast exi_undef_ast = Ok g /\ eps_free g /\
  reachable g p /\ nth_error (g_prods g) p = Some pr /\ In (SNon B) (p_syms pr) /\ ~ has_rule g B /\
  (forall A, ~ left_recursive g A).
Proof.
  destruct (grammar_from_ast exi_undef_ast) as [g| |] eqn:Eg; [|vm_compute in Eg; discriminate Eg..].
  vm_compute in Eg. injection Eg as <-.
  match goal with |- exists g' _ _ _, Ok ?x = Ok _ /\ _ => set (g := x) end.
  exists g, 1, (Production [83] [SNon [67]; SNon [85]] (Some []) (Some []))%N, [85]%N.
  assert (He : eps_free g) by (apply eps_free_b_ok; reflexivity).
  split; auto. split; auto. split.
  { eapply (reach_next _ 0 _ 1); [constructor|reflexivity| |reflexivity]. left; reflexivity. }
  split; [reflexivity|]. split; [simpl; tauto|]. split.
  { intros (q & Hq & E). simpl in Hq. repeat (destruct Hq as [<-|Hq]; [discriminate E|]). destruct Hq. }
  intros A HA. apply (left_recursive_lms g He) in HA as (y & b & (q & Hq & En & Eb) & Hl).
  assert (G : forall x z, lms g x z -> x = z \/
             (x = SNon [83; 39]%N /\ (z = SNon [83]%N \/ z = SNon [67]%N \/ z = SStr [99]%N)) \/
             (x = SNon [83]%N /\ (z = SNon [67]%N \/ z = SStr [99]%N)) \/ (x = SNon [67]%N /\ z = SStr [99]%N)).
  { clear. induction 1 as [x|B x b z (q & Hq & En & Eb) _ IH]; auto.
    simpl in Hq. destruct Hq as [<-|[<-|[<-|[]]]]; simpl in En, Eb; injection Eb as <- <-; subst B;
      intuition (subst; try discriminate; auto 10). }
  apply G in Hl. simpl in Hq.
  destruct Hq as [<-|[<-|[<-|[]]]]; simpl in En, Eb; injection Eb as <- <-; subst A; intuition discriminate.
Qed.
