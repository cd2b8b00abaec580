(** Property C58: debug builds and release builds do the same. *)
From Verif Require Import Base Regex Nfa Overlap OverlapProofs Dfa Lex Grammar GrammarSpec GrammarProofs GrammarCheck First Item ItemSpec ItemProofs
  Table TableSpec MergeProofs TableProofs TableFacts Witness PropsTable Parse ParseSpec ParseCheck TreeFacts Auto ParseProofs ParseTerm PropsParse
  Support PropsSupport GrammarFile GrammarFileSpec GrammarFileProofs Release.

Local Ltac compute_ok := vm_compute; reflexivity.

(** Of every quoted text and every piece of code in a grammar file, both builds take the same
    content, and neither fails. *)
Theorem C58_files :
  forall text ts, file_tokens (length text) text = Ok ts -> forall s,
  (In (GStr s) ts -> alloc_quoted_str s = Ok (alloc_quoted_str_release s) /\ alloc_regex s = Ok (alloc_regex_release s)) /\
  (In (GCode s) ts -> alloc_ts_code s = Ok (alloc_ts_code_release s)).
Proof.
  intros text ts E s. apply file_tokens_iff in E. apply Tokens_proper in E. rewrite Forall_forall in E.
  assert (H : forall a c b, strip (a :: c ++ [b]) = Ok (strip_release (a :: c ++ [b]))).
  { intros a c b. unfold strip, strip_release. destruct (Nat.ltb_spec (length (a :: c ++ [b])) 2) as [Hl|]; [|reflexivity].
    simpl in Hl. rewrite app_length in Hl. simpl in Hl. lia. }
  split; intros Hs; apply E in Hs; destruct Hs as (c & -> & _).
  - split; [apply H|]. unfold alloc_regex, alloc_regex_release. destruct (_ <? 3); [reflexivity|apply H].
  - apply H.
Qed.
Print Assumptions C58_files.

(** The automaton of a lexer is the same: the only subtraction in its construction never
    underflows, for no range of the alphabet is empty. *)
Theorem C58_dfa :
  forall ranges alphabet, remove_overlap ranges = Ok alphabet -> forall n set label, In label alphabet ->
  move_set_release n set label = move_set n set label.
Proof.
  intros ranges alphabet E n set label Hl.
  assert (Hz : (snd label =? 0)%N = false).
  { unfold remove_overlap in E. apply bind_ok in E as (v & _ & E). injection E as <-. apply filter_In in Hl as [_ Hl].
    unfold rng_empty in Hl. rewrite negb_involutive in Hl. apply N.ltb_lt in Hl. apply N.eqb_neq. lia. }
  unfold move_set_release, move_set. rewrite Hz. generalize (@nil nat). induction set as [|s set IH]; intros ret; [reflexivity|].
  cbn [foldM]. destruct (edge_iter n s) as [es| |]; cbn [bind]; [|reflexivity..].
  assert (He : forall es ret, foldM (fun ret e => match e_label e with
      | None => Ok ret
      | Some l => if matches l (fst label) then
          if false then Panic PUnderflow else Ok (if matches l (snd label - 1)%N then set_insert (e_to e) ret else ret)
        else Ok ret end) es ret =
    Ok (fold_left (fun ret e => match e_label e with
      | None => ret
      | Some l => if matches l (fst label) && matches l (snd label - 1)%N then set_insert (e_to e) ret else ret
      end) es ret)).
  { clear. induction es as [|e es IH]; intros ret; [reflexivity|]. cbn [foldM fold_left].
    destruct (e_label e) as [l|]; cbn [bind]; [|apply IH]. destruct (matches l (fst label)); cbn [bind andb]; apply IH. }
  rewrite He. cbn [bind]. apply IH.
Qed.
Print Assumptions C58_dfa.

(** ** The tables *)

Lemma merge_rest_same sets is : forall st, merge_rest sets is st <> Panic PAssert -> merge_rest_release sets is st = merge_rest sets is st.
Proof.
  induction is as [|i is IH]; intros [s pr] H; [reflexivity|]. cbn [merge_rest merge_rest_release] in *.
  destruct (take_set sets pr i) as [[o pr']| |]; cbn [bind] in *; [|reflexivity..].
  unfold union in *. unfold union_release. destruct (length s =? length o); [|exfalso; apply H; reflexivity].
  destruct (mapM _ s) as [s'| |]; cbn [bind] in *; [|reflexivity..]. apply IH, H.
Qed.
Lemma merge_group_same sets st grp : merge_group sets st grp <> Panic PAssert -> merge_group_release sets st grp = merge_group sets st grp.
Proof.
  unfold merge_group, merge_group_release, merge_sets, merge_sets_release. destruct (snd grp) as [|i is]; [reflexivity|].
  destruct (take_set sets (ms_presence st) i) as [p| |]; cbn [bind]; [|reflexivity..]. intros H.
  rewrite merge_rest_same; [reflexivity|]. intros E. apply H. rewrite E. reflexivity.
Qed.
Lemma merge_groups_same sets l : forall st, foldM (merge_group sets) l st <> Panic PAssert ->
  foldM (merge_group_release sets) l st = foldM (merge_group sets) l st.
Proof.
  induction l as [|grp l IH]; intros st H; [reflexivity|]. cbn [foldM] in *.
  rewrite merge_group_same; [|intros E; apply H; rewrite E; reflexivity].
  destruct (merge_group sets st grp) as [st'| |]; cbn [bind] in *; [|reflexivity..]. apply IH, H.
Qed.
Lemma merge_cores_same hash sets lalr m : merge_cores hash sets = Ok (lalr, m) -> merge_cores_release hash sets = Ok (lalr, m).
Proof.
  unfold merge_cores, merge_cores_release. intros E. rewrite merge_groups_same; [exact E|].
  intros E'. rewrite E' in E. discriminate E.
Qed.

(** Both builds make the same tables, and fail in the same way, unless two different cores have the
    same hash; missing: then (see below). *)
Theorem C58_tables_partial :
  forall ast g, grammar_from_ast ast = Ok g -> forall hash,
  ((forall lr, items g = Ok lr -> collision_free hash lr) -> make_tables_release hash g = make_tables hash g) /\
  (forall t, make_tables hash g = Ok t -> make_tables_release hash g = Ok t).
Proof.
  intros ast g Hg hash. unfold make_tables, make_tables_release. destruct (grammar_from_ast_ok _ _ Hg) as (st & _ & W & _).
  destruct (items g) as [lr0| |] eqn:El; cbn [bind]; [|split; auto..].
  split.
  - intros Hc. destruct (C25_merge_returns hash lr0 (lr_wf g _ W lr0 El)) as [H _].
    destruct (H (Hc _ eq_refl)) as (lalr & m & E). rewrite E, (merge_cores_same _ _ _ _ E). reflexivity.
  - intros t. destruct (merge_cores hash lr0) as [[lalr m]| |] eqn:E; cbn [bind]; [|discriminate..].
    rewrite (merge_cores_same _ _ _ _ E). auto.
Qed.
Print Assumptions C58_tables_partial.

(** S -> a A c | b D; D -> A d | B e; A -> X; B -> X y; X -> x, and a hash function with which the
    states with the cores [A -> X .] and [A -> X ., B -> X . y] collide. *)
Definition w58 : list aprod :=
  [PS 83 [[T 97; V 65; T 99]; [T 98; V 68]]; P 68 [[V 65; T 100]; [V 66; T 101]]; P 65 [[V 88]]; P 66 [[V 88; T 121]]; P 88 [[T 120]]]%N.
Definition chash (l : list item) : N := if eqb l [(5, 1)] || eqb l [(5, 1); (6, 1)] then 0%N else ehash l.

(** With a collision the debug build panics, but the release build may go on with an item less: a
    sentence is then rejected. *)
Theorem C58_collision_refuted :
  exists ast g t hash t' tokens w, tables_of ast g t /\ well_formed g /\ ended tokens w /\
    (forall st, find ap_start ast = Some st -> sentence g (ap_name st) w) /\
    (exists ps, parse_impl g t tokens = Ok ps) /\
    make_tables hash g = Panic PAssert /\ make_tables_release hash g = Ok t' /\
    parse_impl_release g t' tokens = Panic PInvalidToken.
Proof.
  exists w58. destruct (grammar_from_ast w58) as [g| |] eqn:Eg; [|vm_compute in Eg; discriminate Eg..].
  destruct (make_tables ehash g) as [t| |] eqn:Et; [|vm_compute in Eg; injection Eg as <-; vm_compute in Et; discriminate Et..].
  destruct (make_tables_release chash g) as [t'| |] eqn:Et'; [|vm_compute in Eg; injection Eg as <-; vm_compute in Et'; discriminate Et'..].
  exists g, t, chash, t', [2; 6; 7; 5; 0], [2; 6; 7; 5]. split; [apply tables_of_any; auto|].
  vm_compute in Eg; injection Eg as <-.
  split; [split; [split; [apply eps_free_b_ok|apply eof_free_b_ok]|apply start_fresh_b_ok]; reflexivity|].
  split; [split; [reflexivity|simpl; intuition discriminate]|].
  split; [|vm_compute in Et; injection Et as <-; split; [eexists; compute_ok|split; [compute_ok|split; [exact Et'|vm_compute in Et'; injection Et' as <-; compute_ok]]]].
  intros s Hs. vm_compute in Hs. injection Hs as <-. cbn [ap_name].
  set (tr := Node 2 [Leaf (SStr [98]%N); Node 4 [Node 6 [Node 7 [Leaf (SStr [120]%N)]; Leaf (SStr [121]%N)]; Leaf (SStr [101]%N)]]).
  match goal with |- sentence ?g ?n ?w => assert (H : parse_tree_b g n w tr = true) by compute_ok end.
  apply parse_tree_b_ok in H as (Ho & Hr & Hy).
  exists (yield tr). split; [exact Hy|]. split; [eapply tree_terminals; exact Ho|apply tree_derives; auto].
Qed.
Print Assumptions C58_collision_refuted.

(** ** The parser *)

Lemma parse_step_same g t tokens s : parse_step g t tokens s <> inr (Panic PUnderflow) -> parse_step_release g t tokens s = parse_step g t tokens s.
Proof.
  unfold parse_step, parse_step_release. destruct (ps_stack s) as [|top rest]; [reflexivity|].
  destruct (tbl_get _ _ _) as [[q|p|]|]; try reflexivity. destruct (get_production g p) as [pr|]; [|reflexivity].
  destruct (_ <? _); [intros H; exfalso; apply H|]; reflexivity.
Qed.
Lemma run_same {S R} (f h : S -> S + R) (bad : R) : (forall s, f s <> inr bad -> h s = f s) ->
  forall b s, run f b s <> inr bad -> run h b s = run f b s.
Proof.
  intros H b. induction b as [|b IH]; intros s Hs; [apply H, Hs|]. cbn [run] in *.
  rewrite IH; [|intros E; rewrite E in Hs; apply Hs; reflexivity]. destruct (run f b s) as [s'|r]; [apply IH, Hs|reflexivity].
Qed.

(** Both builds parse in the same way: the stack never underflows. *)
Theorem C58_parser :
  forall ast g, grammar_from_ast ast = Ok g -> forall hash t, make_tables hash g = Ok t ->
  forall tokens, parse_impl_release g t tokens = parse_impl g t tokens.
Proof.
  intros ast g Hg hash t Ht tokens. destruct tokens as [|a tokens]; [reflexivity|].
  unfold parse_impl_release. rewrite (run_same (parse_step g t (a :: tokens)) _ (Panic PUnderflow)).
  - reflexivity.
  - intros s. apply parse_step_same.
  - intros E. assert (Hp : parse_impl g t (a :: tokens) = Panic PUnderflow) by (unfold parse_impl; rewrite E; reflexivity).
    destruct (C32_failures _ _ Hg _ _ Ht (a :: tokens) PUnderflow ltac:(discriminate) Hp) as [X|X]; discriminate X.
Qed.
Print Assumptions C58_parser.

Lemma debug_nsteps g t tokens n : forall s s', nsteps (parse_step g t tokens) n s s' -> forall k, (k + N.of_nat n <= i32_max)%N ->
  nsteps (parse_step_debug g t tokens) n (k, s) ((k + N.of_nat n)%N, s').
Proof.
  induction n as [|n IH]; intros s s' H k Hk; inversion H as [|n' s0 s1 s2 E H']; subst.
  - rewrite N.add_0_r. constructor.
  - econstructor.
    + unfold parse_step_debug. cbn [fst snd]. destruct (N.eqb_spec k i32_max) as [->|]; [lia|]. rewrite E. reflexivity.
    + replace (k + N.of_nat (S n))%N with ((k + 1) + N.of_nat n)%N by lia. apply IH; auto. lia.
Qed.

(** The counter of the debug build: the parser does what it does without it for up to 2147483647
    iterations, and panics in the next one.  In particular it always stops. *)
Theorem C58_counter :
  forall g t a tokens,
  (forall n c r, nsteps (parse_step g t (a :: tokens)) n (parse_init a) c -> parse_step g t (a :: tokens) c = inr r ->
     (N.of_nat n < 2147483647)%N -> parse_impl_debug g t (a :: tokens) = r) /\
  (forall n c, nsteps (parse_step g t (a :: tokens)) n (parse_init a) c -> N.of_nat n = 2147483647%N ->
     parse_impl_debug g t (a :: tokens) = Panic PUnderflow) /\
  parse_impl_debug g t [] = parse_impl g t [].
Proof.
  intros g t a tokens. change 2147483647%N with i32_max.
  assert (H : forall n c r, nsteps (parse_step_debug g t (a :: tokens)) n (0%N, parse_init a) c ->
    parse_step_debug g t (a :: tokens) c = inr r -> (N.of_nat n <= i32_max)%N -> parse_impl_debug g t (a :: tokens) = r).
  { intros n c r Hn E Hle. unfold parse_impl_debug. remember 32 as b eqn:Eb.
    rewrite (nsteps_run _ n _ c r b Hn E); [reflexivity|].
    assert (N.of_nat n < N.of_nat (2 ^ b))%N; [|lia]. rewrite Nat2N.inj_pow. subst b. change (N.of_nat 2 ^ N.of_nat 32)%N with 4294967296%N.
    unfold i32_max in Hle. lia. }
  split; [|split; [|reflexivity]].
  - intros n c r Hn E Hlt. eapply H; [apply (debug_nsteps _ _ _ _ _ _ Hn 0%N); lia| |lia].
    unfold parse_step_debug. cbn [fst snd]. destruct (N.eqb_spec (0 + N.of_nat n) i32_max); [lia|]. rewrite E. reflexivity.
  - intros n c Hn E. eapply H; [apply (debug_nsteps _ _ _ _ _ _ Hn 0%N); lia| |lia].
    unfold parse_step_debug. cbn [fst snd]. rewrite E, N.add_0_l, N.eqb_refl. reflexivity.
Qed.
Print Assumptions C58_counter.

(** So where the release build runs for ever (C31), the debug build panics. *)
Theorem C58_for_ever_refuted :
  exists ast g t tokens w a, tables_of ast g t /\ well_formed g /\ ended tokens w /\ nth_error tokens 0 = Some a /\
    (forall n, exists c, nsteps (parse_step_release g t tokens) n (parse_init a) c) /\
    parse_impl_debug g t tokens = Panic PUnderflow.
Proof.
  destruct C31_terminates_refuted as (ast & g & t & tokens & w & a & Ht & Hw & He & Ha & Hf).
  exists ast, g, t, tokens, w, a. do 4 (split; [assumption|]). destruct tokens as [|a' tokens]; [discriminate|].
  apply (f_equal (fun o => match o with Some x => x | None => 0 end)) in Ha. cbn in Ha. subst a'. split.
  - intros n. destruct (Hf n) as (c & Hc). exists c. clear -Hc. induction Hc as [|n s s' s'' E _ IH]; econstructor; [|exact IH].
    rewrite parse_step_same; [exact E|]. rewrite E. discriminate.
  - remember 2147483647%N as k eqn:Ek. destruct (Hf (N.to_nat k)) as (c & Hc). eapply (proj2 (C58_counter g t a tokens)); [exact Hc|].
    rewrite <- Ek. apply N2Nat.id.
Qed.
Print Assumptions C58_for_ever_refuted.

(** The hypotheses are met: a file with a literal and code, an alphabet, tables, and both parsers
    accepting and rejecting; the differences are real outside them. *)
Example C58_nonvacuous :
  (exists ts s c, file_tokens 8 [34; 97; 34; 32; 40; 98; 41; 10]%N = Ok ts /\ In (GStr s) ts /\ In (GCode c) ts /\
     alloc_quoted_str_release s = [97]%N /\ alloc_ts_code_release c = [98]%N) /\
  (alloc_quoted_str [34]%N = Panic PUnderflow /\ alloc_quoted_str_release [34]%N = []) /\
  remove_overlap [(97, 100); (98, 99)]%N = Ok [(97, 98); (98, 99); (99, 100)]%N /\
  (exists g t, grammar_from_ast w_cc = Ok g /\ make_tables ehash g = Ok t /\ make_tables_release ehash g = Ok t /\
     parse_impl_release g t [2; 1; 2; 0] = Ok [3; 3; 2; 1] /\ parse_impl_release g t [2; 1; 0] = Panic PInvalidToken /\
     parse_impl_debug g t [2; 1; 2; 0] = Ok [3; 3; 2; 1]).
Proof.
  split; [|split; [split; reflexivity|split; [compute_ok|]]].
  - do 3 eexists. split; [compute_ok|]. split; [left; reflexivity|]. split; [right; left; reflexivity|]. split; compute_ok.
  - destruct (grammar_from_ast w_cc) as [g| |] eqn:Eg; [|vm_compute in Eg; discriminate Eg..].
    destruct (make_tables ehash g) as [t| |] eqn:Et; [|vm_compute in Eg; injection Eg as <-; vm_compute in Et; discriminate Et..].
    exists g, t. vm_compute in Eg; injection Eg as <-. vm_compute in Et; injection Et as <-.
    repeat match goal with |- _ /\ _ => split end; try reflexivity; compute_ok.
Qed.
