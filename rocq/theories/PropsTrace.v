(** Property C95: what the parser prints tells how the text was parsed. *)
From Coq Require Import String.
From Verif Require Import Base Text TsTextFacts Grammar GrammarSpec GrammarProofs First Item ItemSpec ItemProofs ItemPlain GrammarCheck Table TableSpec TableProofs TableFacts
  Parse ParseSpec ParseCheck TreeFacts Auto ParseProofs ParseTerm ParseCycle ParseComplete Report ReportSpec ReportProofs ParseGenEmit Trace TraceSpec Witness
  PropsGrammar PropsTable PropsParse PropsMixUse.
Local Open Scope list_scope.

(** ** Reading lines back *)
Lemma lines_from_line l s line : ~ In 10%N l -> lines_from line (l ++ 10%N :: s) = (rev line ++ l) :: lines_from [] s.
Proof.
  revert line. induction l as [|c l IH]; intros line Hn; cbn [app lines_from].
  - rewrite app_nil_r. reflexivity.
  - destruct (N.eqb_spec c 10) as [->|_]; [exfalso; apply Hn; left; auto|]. rewrite IH by (intros H; apply Hn; right; auto). cbn [rev]. rewrite <- app_assoc. reflexivity.
Qed.
Lemma lines_printed out : Forall (fun l => ~ In 10%N l) out -> lines_of (printed out) = out.
Proof.
  unfold lines_of, printed. induction 1 as [|l out Hl _ IH]; [reflexivity|]. cbn [flat_map]. rewrite <- app_assoc. cbn [app].
  rewrite lines_from_line by auto. cbn [rev app]. f_equal. exact IH.
Qed.
Lemma after_app a b : after a (a ++ b) = Some b.
Proof. induction a as [|c a IH]; cbn; auto. rewrite N.eqb_refl. exact IH. Qed.
Lemma afters_app pre a b : afters pre (a ++ b) = afters pre a ++ afters pre b.
Proof. induction a as [|x a IH]; auto. cbn [app afters]. destruct (after pre x); cbn [app]; rewrite IH; reflexivity. Qed.

Lemma show_body_join l : forall i, show_body (i + length l - 1) i l = join [32%N] (map show_sym l).
Proof.
  induction l as [|x [|y l] IH]; intros i; auto.
  - cbn [show_body length map join]. replace (i + 1 - 1) with i by lia. rewrite Nat.eqb_refl, !app_nil_r. reflexivity.
  - specialize (IH (S i)). cbn [length] in *. cbn [show_body map join]. destruct (Nat.eqb_spec (i + S (S (length l)) - 1) i) as [E|_]; [lia|].
    cbn [app]. f_equal. f_equal. replace (i + S (S (length l)) - 1) with (S i + S (length l) - 1) by lia. exact IH.
Qed.
Lemma show_prod_join pr : show_prod pr = p_name pr ++ [32; 8658; 32; 32]%N ++ join [32%N] (map show_sym (p_syms pr)).
Proof.
  unfold show_prod. do 2 f_equal. destruct (Nat.eqb_spec (length (p_syms pr)) 0) as [E|_]; [|apply (show_body_join _ 0)].
  destruct (p_syms pr); [reflexivity|discriminate].
Qed.
Lemma show_written g p pr : nth_error (g_prods g) p = Some pr -> written_rule g p = show_prod pr.
Proof. intros E. unfold written_rule, rule_of. rewrite E. cbn [option_map]. rewrite show_prod_join. reflexivity. Qed.

(** ** The loop that prints and the loop that parses *)
Definition reds : list str -> list str := afters (tx "  reducing by ").
Section Run.
  Variables (g : grammar) (t : tables) (tokens : list nat) (show_tok : nat -> str).
  Let stp := parse_step g t tokens.
  Let prt := print_step g t show_tok.
  Let out := output_step g t tokens show_tok.

  Fixpoint lines_for (n : nat) (s : pstate) : list str :=
    match n with O => [] | S n => prt s ++ match stp s with inl s' => lines_for n s' | inr _ => [] end end.
  Lemma out_steps n s s' : nsteps stp n s s' -> forall k ls, nsteps out n (s, (k, ls)) (s', (k + n, ls ++ lines_for n s)).
  Proof.
    induction 1 as [s|n s s1 s2 E _ IH]; intros k ls; cbn [lines_for].
    - rewrite app_nil_r, Nat.add_0_r. constructor.
    - rewrite E. econstructor.
      + unfold out, output_step. fold stp. rewrite E. reflexivity.
      + replace (k + S n) with (S k + n) by lia. rewrite app_assoc. apply IH.
  Qed.

  (** What is printed at the end. *)
  Definition at_end_of (n : nat) (r : res (list nat)) : list str := match r with Ok _ => [tx "LOOP COUNT: " ++ decn (S n)] | _ => [] end.
  Lemma output_run a tl n c r : tokens = a :: tl -> nsteps stp n (parse_init a) c -> stp c = inr r -> parse_impl g t tokens <> Diverge ->
    parse_impl g t tokens = r /\ parse_output g t tokens show_tok = Some (r, lines_for n (parse_init a) ++ prt c ++ at_end_of n r).
  Proof.
    intros Et Hn Hc Hd. assert (Hlt : n < 2 ^ parse_bits g tokens /\ parse_impl g t tokens = r).
    { unfold parse_impl in *. rewrite Et in *. pose proof (run_nsteps stp (parse_bits g tokens) (parse_init a)) as HR. unfold stp in HR. rewrite Et in HR.
      destruct (run _ _ _) as [s'|r']; [congruence|]. destruct HR as (m & s' & Hm & Hn' & Hs').
      assert (m = n /\ s' = c) as [-> ->].
      { unfold stp in Hn, Hc. rewrite Et in Hn, Hc. clear -Hn Hc Hn' Hs'. revert m Hn'. induction Hn as [s|n s s1 s2 E _ IH]; intros m Hm.
        - inversion Hm as [|? ? ? ? E']; subst; auto. congruence.
        - inversion Hm as [|? ? ? ? E' H']; subst; [congruence|]. rewrite E in E'. injection E' as <-. destruct (IH Hc _ H') as [-> ->]. auto. }
      split; auto. unfold stp in Hc. rewrite Et in Hc. congruence. }
    destruct Hlt as [Hlt Hr]. split; auto. unfold parse_output. rewrite Et at 1.
    rewrite (nsteps_run out n _ _ (r, lines_for n (parse_init a) ++ prt c ++ at_end_of n r) _ (out_steps _ _ _ Hn 0 []));
      [reflexivity| |exact Hlt].
    unfold out, output_step. cbn [app]. fold stp. rewrite Hc. destruct r as [ps|pn|]; cbn [at_end_of]; rewrite ?app_nil_r; reflexivity.
  Qed.

  (** The rules named in one iteration. *)
  Lemma reds_step s s' : stp s = inl s' -> exists l, ps_trace s' = ps_trace s ++ l /\ reds (prt s) = map (written_rule g) l.
  Proof.
    unfold stp, parse_step, prt, print_step. destruct (ps_stack s) as [|top rest]; [discriminate|].
    destruct (tbl_get (t_action t) top (ps_a s)) as [[q|p|]|]; try discriminate.
    - unfold next_token. intros E. injection E as <-. exists []. split; [cbn; rewrite app_nil_r; reflexivity|]. reflexivity.
    - destruct (get_production g p) as [pr|] eqn:Ep; [|discriminate]. destruct (length (top :: rest) <? length (p_syms pr)); [discriminate|].
      destruct (skipn (length (p_syms pr)) (top :: rest)) as [|top' r']; [discriminate|].
      destruct (tbl_get (t_goto t) top' (p_name pr)) as [q|]; [|discriminate]. intros E. injection E as <-.
      exists [p]. split; [reflexivity|]. unfold reds. cbn [map]. rewrite (show_written _ _ _ Ep).
      change (afters (tx "  reducing by ") ?l) with (reds l). cbn [reds afters]. reflexivity.
  Qed.
End Run.

Lemma reds_run g t tokens show_tok n s s' : nsteps (parse_step g t tokens) n s s' ->
  exists l, ps_trace s' = ps_trace s ++ l /\ reds (lines_for g t tokens show_tok n s) = map (written_rule g) l.
Proof.
  induction 1 as [s|n s s1 s2 E _ (l2 & E2 & R2)]; [exists []; rewrite app_nil_r; auto|].
  destruct (reds_step _ _ _ show_tok _ _ E) as (l1 & E1 & R1). exists (l1 ++ l2). split; [rewrite E2, E1, app_assoc; reflexivity|].
  cbn [lines_for]. rewrite E. unfold reds in *. rewrite afters_app, R1, R2, map_app. reflexivity.
Qed.

(** ** No line is broken *)
Lemma digits_no_nl u : ~ In 10%N (digits u).
Proof. induction u; cbn; intuition discriminate. Qed.
Lemma decn_no_nl n : ~ In 10%N (decn n).
Proof. apply digits_no_nl. Qed.
Lemma no_nl_app (a b : str) : ~ In 10%N a -> ~ In 10%N b -> ~ In 10%N (a ++ b).
Proof. intros H1 H2 H. apply in_app_or in H. tauto. Qed.
Lemma join_no_nl sep l : ~ In 10%N sep -> Forall (fun x => ~ In 10%N x) l -> ~ In 10%N (join sep l).
Proof.
  intros Hs. induction 1 as [|x l Hx Hl IH]; [intros []|]. destruct l as [|y l]; [exact Hx|]. cbn [join]. auto using no_nl_app.
Qed.
Ltac calm := repeat apply no_nl_app; try (apply decn_no_nl); try (cbn; intuition discriminate).
Lemma stack_no_nl s : ~ In 10%N (show_stack s).
Proof. unfold show_stack. calm. apply join_no_nl; [cbn; intuition discriminate|]. apply Forall_forall. intros x Hx. apply in_map_iff in Hx as (k & <- & _). apply decn_no_nl. Qed.
Lemma prod_no_nl g p pr : one_line g -> nth_error (g_prods g) p = Some pr -> ~ In 10%N (show_prod pr).
Proof.
  intros H E. apply nth_error_In in E. destruct (H _ E) as [H1 H2]. rewrite show_prod_join. calm; auto.
  apply join_no_nl; [cbn; intuition discriminate|]. apply Forall_forall. intros x Hx. apply in_map_iff in Hx as (y & <- & Hy). auto.
Qed.
Local Opaque show_stack show_prod.
Section Calm.
  Variables (g : grammar) (t : tables) (tokens : list nat) (show_tok : nat -> str).
  Hypothesis Hg : one_line g.
  Hypothesis Hs : forall i, ~ In 10%N (show_tok i).
  Lemma step_no_nl s : Forall (fun l => ~ In 10%N l) (print_step g t show_tok s).
  Proof using Hg Hs.
    unfold print_step. destruct (ps_stack s) as [|top rest]; [constructor|]. constructor; [calm; apply stack_no_nl|].
    constructor; [calm; apply Hs|]. destruct (tbl_get (t_action t) top (ps_a s)) as [[q|p|]|]; [..|constructor].
    - constructor; [calm|constructor].
    - destruct (get_production g p) as [pr|] eqn:Ep; [|constructor]. destruct (length (top :: rest) <? length (p_syms pr)); [constructor|].
      constructor; [calm; eapply prod_no_nl; eauto|]. destruct (skipn (length (p_syms pr)) (top :: rest)) as [|top' r']; [constructor|].
      destruct (tbl_get (t_goto t) top' (p_name pr)) as [q|]; [|constructor]. constructor; [calm; apply stack_no_nl|constructor].
    - constructor; [calm|constructor].
  Qed.
  Lemma lines_no_nl n : forall s, Forall (fun l => ~ In 10%N l) (lines_for g t tokens show_tok n s).
  Proof using Hg Hs.
    induction n as [|n IH]; intros s; cbn [lines_for]; [constructor|]. apply Forall_app. split; [apply step_no_nl|].
    destruct (parse_step g t tokens s); [apply IH|constructor].
  Qed.
  Lemma end_no_nl n r : Forall (fun l => ~ In 10%N l) (at_end_of n r).
  Proof. destruct r; cbn [at_end_of]; constructor; [calm|constructor]. Qed.
End Calm.

(** A run that ends. *)
Lemma run_of g t tokens a tl : tokens = a :: tl -> parse_impl g t tokens <> Diverge ->
  exists n c, nsteps (parse_step g t tokens) n (parse_init a) c /\ parse_step g t tokens c = inr (parse_impl g t tokens).
Proof.
  intros -> H. unfold parse_impl in *. pose proof (run_nsteps (parse_step g t (a :: tl)) (parse_bits g (a :: tl)) (parse_init a)) as HR.
  destruct (run _ _ _) as [s|r]; [congruence|]. destruct HR as (n & c & _ & Hn & Hc). eauto.
Qed.
Lemma run_short g t tokens a tl n c r : tokens = a :: tl -> parse_impl g t tokens <> Diverge ->
  nsteps (parse_step g t tokens) n (parse_init a) c -> parse_step g t tokens c = inr r -> n < 2 ^ parse_bits g tokens.
Proof.
  intros -> H Hn Hc. unfold parse_impl in *. pose proof (run_nsteps (parse_step g t (a :: tl)) (parse_bits g (a :: tl)) (parse_init a)) as HR.
  destruct (run _ _ _) as [s|r']; [congruence|]. destruct HR as (m & s' & Hm & Hn' & Hs').
  enough (m = n) by lia. clear -Hn Hc Hn' Hs'. revert m Hn'. induction Hn as [s|n s s1 s2 E _ IH]; intros m Hm.
  - inversion Hm as [|? ? ? ? E']; subst; auto. congruence.
  - inversion Hm as [|? ? ? ? E' H']; subst; [congruence|]. rewrite E in E'. injection E' as <-. rewrite (IH Hc _ H'). reflexivity.
Qed.
Lemma inv_run g start (W : wf_grammar g start) (Hst : g_start g = aug_name start) t (A : auto g t) tokens w (Hend : ended tokens w) (Heof : eof_free g) n c c' ts :
  inv g t tokens w c ts -> nsteps (parse_step g t tokens) n c c' -> exists ts', inv g t tokens w c' ts'.
Proof.
  intros HI Hn. revert ts HI. induction Hn as [s|n s s1 s2 E _ IH]; intros ts HI; eauto.
  destruct (inv_step g start W t A tokens w Hend Heof s s1 ts HI E) as [ts1 H1]. eauto.
Qed.

(** An accepted text: the lines that name rules are those of the nodes of the parse tree, in
    post-order, and the last two lines say that the text was accepted and count its leaves and
    nodes. *)
Theorem C95_accepted :
  forall ast g st, grammar_from_ast ast = Ok g -> find ap_start ast = Some st -> eof_free g -> start_fresh g -> one_line g ->
  forall hash t, make_tables hash g = Ok t -> forall show_tok, (forall i, ~ In 10%N (show_tok i)) ->
  forall tokens w ps, ended tokens w -> parse_impl g t tokens = Ok ps ->
  exists out tr before, parse_output g t tokens show_tok = Some (Ok ps, out) /\ parse_tree g (ap_name st) w tr /\ ps = postorder tr /\
    rules_named (printed out) = map (written_rule g) (postorder tr) /\
    lines_of (printed out) = before ++ [tx "Accepting!"; tx "LOOP COUNT: " ++ decn (length (yield tr) + length (postorder tr) + 1)].
Proof.
  intros ast g st Hg Hs Heof Hf Hol hash t Ht show_tok Hst' tokens w ps Hend Hp.
  destruct (C29_soundness _ _ _ Hg Hs Heof Hf _ _ Ht _ _ _ Hend Hp) as (tr & Htr & Eps & _).
  destruct (grammar_from_ast_ok _ _ Hg) as (s' & Hs' & W & Hst & _). rewrite Hs in Hs'. injection Hs' as <-.
  pose proof (tables_auto g _ W Hst hash t Ht) as A.
  destruct (inv_init g t tokens w Hend) as (a & tl & Et & H0).
  destruct (run_of g t tokens a tl Et) as (n & c & Hn & Hc); [congruence|]. rewrite Hp in Hc.
  destruct (output_run g t tokens show_tok a tl n c (Ok ps) Et Hn Hc) as [_ Ho]; [congruence|].
  destruct (inv_run g _ W Hst t A tokens w Hend Heof n _ _ _ H0 Hn) as [ts HI].
  pose proof (steps_count _ _ _ _ _ _ Hn) as Hcount.
  destruct (reds_run _ _ _ show_tok _ _ _ Hn) as (l & El & Rl). cbn [parse_init ps_trace app] in El.
  assert (Hfin : ps_trace c = ps /\ exists x y, print_step g t show_tok c = [tx "STACK: " ++ x; tx "S=" ++ y; tx "Accepting!"]).
  { clear -Hc. unfold parse_step, print_step in *. destruct (ps_stack c) as [|top rest]; [discriminate|].
    destruct (tbl_get (t_action t) top (ps_a c)) as [[q|p|]|] eqn:Ea; [unfold next_token in Hc; discriminate| |injection Hc as <-; eauto|discriminate].
    destruct (get_production g p) as [pr|]; [|discriminate]. destruct (length (top :: rest) <? length (p_syms pr)); [discriminate|].
    destruct (skipn (length (p_syms pr)) (top :: rest)) as [|top' r']; [discriminate|]. destruct (tbl_get (t_goto t) top' (p_name pr)); discriminate. }
  destruct Hfin as (Etr & x & y & Ex).
  assert (Ha : ps_a c = 0).
  { pose proof (step_outcome g t A tokens c ts (proj1 HI)) as O. rewrite Hc in O. inversion O; auto. }
  destruct HI as (_ & _ & Hi & Hia & _). rewrite Ha in Hia. pose proof (at_end tokens w Hend _ Hi Hia) as Ei.
  assert (Hw : length w = length (yield tr)).
  { destruct Htr as (_ & _ & Hy). unfold symbols in Hy. apply (f_equal (@length _)) in Hy. rewrite !map_length in Hy. exact Hy. }
  set (o := lines_for g t tokens show_tok n (parse_init a) ++ print_step g t show_tok c ++ at_end_of n (Ok ps)) in *.
  assert (Hl : lines_of (printed o) = o).
  { apply lines_printed. unfold o. apply Forall_app. split; [apply lines_no_nl; auto|]. apply Forall_app. split; [apply step_no_nl; auto|apply end_no_nl]. }
  exists o, tr, (lines_for g t tokens show_tok n (parse_init a) ++ [tx "STACK: " ++ x; tx "S=" ++ y]).
  split; auto. split; auto. split; auto. unfold rules_named. rewrite Hl. split.
  - change (afters (tx "  reducing by ")) with reds. unfold o. unfold reds at 1. rewrite !afters_app. change (afters (tx "  reducing by ")) with reds.
    rewrite Rl, Ex, <- El, Etr, Eps. cbn [at_end_of]. replace (reds [tx "STACK: " ++ x; tx "S=" ++ y; tx "Accepting!"]) with (@nil str) by reflexivity.
    replace (reds [tx "LOOP COUNT: " ++ decn (S n)]) with (@nil str) by reflexivity. rewrite !app_nil_r. reflexivity.
  - unfold o. rewrite Ex. cbn [at_end_of]. rewrite <- app_assoc. cbn [app]. do 4 f_equal. rewrite <- Hcount, Ei, Hw, Etr, Eps.
    replace (length (yield tr) + length (postorder tr) + 1) with (S (length (yield tr) + length (postorder tr))) by lia. reflexivity.
Qed.
Print Assumptions C95_accepted.

(** A refused text: the lines that name rules are those of a sequence of trees for the tokens before
    the wrong one. *)
Theorem C95_refused :
  forall ast g st, grammar_from_ast ast = Ok g -> find ap_start ast = Some st -> eof_free g -> start_fresh g -> one_line g ->
  forall hash t, make_tables hash g = Ok t -> forall show_tok, (forall i, ~ In 10%N (show_tok i)) ->
  forall tokens w, ended tokens w -> parse_impl g t tokens = Panic PInvalidToken ->
  exists out ts i, parse_output g t tokens show_tok = Some (Panic PInvalidToken, out) /\
    Forall (tree_ok g) ts /\ i <= length w /\ symbols g (firstn i w) (flat_map yield ts) /\
    rules_named (printed out) = map (written_rule g) (flat_map postorder ts) /\
    (exists r, parse_report g t tokens = Some r /\ rp_pos r = i).
Proof.
  intros ast g st Hg Hs Heof Hf Hol hash t Ht show_tok Hst' tokens w Hend Hp.
  destruct (grammar_from_ast_ok _ _ Hg) as (s' & Hs' & W & Hst & _). rewrite Hs in Hs'. injection Hs' as <-.
  pose proof (tables_auto g _ W Hst hash t Ht) as A.
  destruct (inv_init g t tokens w Hend) as (a & tl & Et & H0).
  destruct (run_of g t tokens a tl Et) as (n & c & Hn & Hc); [congruence|]. rewrite Hp in Hc.
  destruct (output_run g t tokens show_tok a tl n c _ Et Hn Hc) as [_ Ho]; [congruence|].
  destruct (inv_run g _ W Hst t A tokens w Hend Heof n _ _ _ H0 Hn) as [ts HI].
  destruct (reds_run _ _ _ show_tok _ _ _ Hn) as (l & El & Rl). cbn [parse_init ps_trace app] in El.
  assert (Hfin : exists q s x y, ps_stack c = q :: s /\ print_step g t show_tok c = [tx "STACK: " ++ x; tx "S=" ++ y]).
  { clear -Hc. unfold parse_step, print_step in *. destruct (ps_stack c) as [|top rest]; [discriminate|].
    destruct (tbl_get (t_action t) top (ps_a c)) as [[q|p|]|] eqn:Ea; [unfold next_token in Hc; discriminate| |discriminate|eauto 6].
    destruct (get_production g p) as [pr|]; [|discriminate]. destruct (length (top :: rest) <? length (p_syms pr)); [discriminate|].
    destruct (skipn (length (p_syms pr)) (top :: rest)) as [|top' r']; [discriminate|]. destruct (tbl_get (t_goto t) top' (p_name pr)); discriminate. }
  destruct Hfin as (q & s & x & y & Eq & Ex).
  destruct HI as (Hsk & Htr & Hi & _ & Hy).
  set (o := lines_for g t tokens show_tok n (parse_init a) ++ print_step g t show_tok c ++ at_end_of n (Panic PInvalidToken)) in *.
  assert (Hl : lines_of (printed o) = o).
  { apply lines_printed. unfold o. apply Forall_app. split; [apply lines_no_nl; auto|]. apply Forall_app. split; [apply step_no_nl; auto|apply end_no_nl]. }
  exists o, (rev ts), (ps_i c). split; auto. split; [apply Forall_rev; eapply stacked_ok; eauto|]. split; auto. split; auto. split.
  - unfold rules_named. rewrite Hl. change (afters (tx "  reducing by ")) with reds. unfold o. unfold reds at 1. rewrite !afters_app. change (afters (tx "  reducing by ")) with reds.
    rewrite Rl, Ex, <- El, Htr. cbn [at_end_of]. replace (reds [tx "STACK: " ++ x; tx "S=" ++ y]) with (@nil str) by reflexivity. rewrite app_nil_r. reflexivity.
  - assert (Hrs : forall n c0, nsteps (parse_step g t tokens) n c0 c -> nsteps (report_step g t tokens) n c0 c).
    { clear. intros n c0 H. induction H as [|n s s1 s2 E _ IH]; [constructor|]. econstructor; [|exact IH]. unfold report_step. rewrite E. reflexivity. }
    exists (Report (ps_i c) (ps_a c) (tbl_valid (t_action t) q)). split; [|reflexivity]. unfold parse_report. rewrite Et at 1.
    assert (Hlt : n < 2 ^ parse_bits g tokens).
    { eapply run_short; eauto. congruence. }
    rewrite (nsteps_run (report_step g t tokens) n _ _ (Some (Report (ps_i c) (ps_a c) (tbl_valid (t_action t) q))) _ (Hrs _ _ Hn)); auto.
    unfold report_step. rewrite Hc, Eq. reflexivity.
Qed.
Print Assumptions C95_refused.

(** ** What the named rules tell *)
Lemma first_space (a a' b b' : str) : ~ In 32%N a -> ~ In 32%N a' -> a ++ 32%N :: b = a' ++ 32%N :: b' -> a = a' /\ b = b'.
Proof.
  revert a'. induction a as [|c a IH]; intros [|c' a'] H H' E; cbn in E.
  - injection E as ->. auto.
  - injection E as <- _. exfalso. apply H'. left. auto.
  - injection E as -> _. exfalso. apply H. left. auto.
  - injection E as -> E. apply IH in E as [-> ->]; auto; [intros X; apply H; right; auto|intros X; apply H'; right; auto].
Qed.
Lemma join_words l : forall l', Forall (fun x : str => x <> [] /\ ~ In 32%N x) l -> Forall (fun x : str => x <> [] /\ ~ In 32%N x) l' ->
  join [32%N] l = join [32%N] l' -> l = l'.
Proof.
  assert (N : forall (x y : str) l, ~ In 32%N x -> x <> y ++ [32%N] ++ join [32%N] l).
  { intros x y l0 H ->. apply H, in_or_app. right. left. auto. }
  induction l as [|x [|y l] IH]; intros [|x' [|y' l']] H H' E; auto.
  - inversion H' as [|? ? [Hx _]]; subst. cbn [join] in E. congruence.
  - inversion H' as [|? ? [Hx _]]; subst. cbn [join] in E. destruct x'; [congruence|discriminate].
  - inversion H as [|? ? [Hx _]]; subst. cbn [join] in E. congruence.
  - cbn in E. congruence.
  - inversion H as [|? ? [Hx Hn]]; subst. cbn [join] in E. exfalso. exact (N x x' (y' :: l') Hn E).
  - inversion H as [|? ? [Hx _]]; subst. cbn [join] in E. destruct x; [congruence|discriminate].
  - inversion H' as [|? ? [Hx Hn]]; subst. cbn [join] in E. exfalso. exact (N x' x (y :: l) Hn (eq_sym E)).
  - inversion H as [|? ? [Hx Hn] Hl]; subst. inversion H' as [|? ? [Hx' Hn'] Hl']; subst.
    change (x ++ 32%N :: join [32%N] (y :: l) = x' ++ 32%N :: join [32%N] (y' :: l')) in E.
    apply first_space in E as [-> E]; auto. f_equal. apply IH; auto.
Qed.
Lemma written_inj g p q : clear g -> rule_of g p <> None -> rule_of g q <> None -> written_rule g p = written_rule g q -> rule_of g p = rule_of g q.
Proof.
  intros [H1 H2] Hp Hq. unfold written_rule, rule_of in *. destruct (nth_error (g_prods g) p) as [pr|] eqn:Ep; [|contradiction].
  destruct (nth_error (g_prods g) q) as [pr'|] eqn:Eq; [|contradiction]. cbn [option_map]. apply nth_error_In in Ep, Eq. intros E.
  destruct (H1 _ Ep) as [A1 A2]. destruct (H1 _ Eq) as [B1 B2].
  apply (first_space _ _ (8658 :: 32 :: 32 :: join [32] (map show_sym (p_syms pr)))%N (8658 :: 32 :: 32 :: join [32] (map show_sym (p_syms pr')))%N) in E as [-> E]; auto.
  injection E as E. apply join_words in E.
  2, 3: apply Forall_forall; intros x Hx; apply in_map_iff in Hx as (y & <- & Hy); auto.
  do 2 f_equal. assert (G : forall l l', (forall x, In x l -> In x (p_syms pr)) -> (forall x, In x l' -> In x (p_syms pr')) -> map show_sym l = map show_sym l' -> l = l').
  { clear E. intros l. induction l as [|x l IH]; intros [|x' l'] I1 I2 E; try discriminate; auto. injection E as E1 E2. f_equal.
    - apply (H2 pr pr'); auto; [apply I1|apply I2]; left; auto.
    - apply IH; auto; intros y Hy; [apply I1|apply I2]; right; auto. }
  apply G; auto.
Qed.
Lemma post_rules g tr : tree_ok g tr -> Forall (fun p => rule_of g p <> None) (postorder tr).
Proof.
  induction tr as [x|p ts IH] using tree_ind'; intros Ho; [constructor|]. inversion Ho as [|? ? pr Hp Hts Hm]; subst. cbn [postorder].
  apply Forall_app. split.
  - apply Forall_flat_map. rewrite Forall_forall in *. auto.
  - constructor; [|constructor]. unfold rule_of. rewrite Hp. discriminate.
Qed.

Lemma same_word g start w w' l : wf_grammar g start -> eof_free g -> symbols g w l -> symbols g w' l -> w = w'.
Proof.
  intros W He. pose proof (tokens_nodup g start W He) as Hnd. unfold symbols. revert w w'. induction l as [|x l IH]; intros [|k w] [|k' w'] H H'; try discriminate; auto.
  injection H as H1 H2. injection H' as H1' H2'. f_equal; [|apply IH; auto].
  apply (proj1 (NoDup_nth_error (g_tokens g)) Hnd); [|congruence]. apply nth_error_Some. congruence.
Qed.

(** If no two symbols look the same and no rule is written twice, the lines that name rules tell
    the parse tree, and so the symbols of the text. *)
Theorem C95_rules_tell_partial :
  forall ast g st, grammar_from_ast ast = Ok g -> find ap_start ast = Some st -> eof_free g -> start_fresh g ->
  one_line g -> clear g -> no_rule_twice g ->
  forall hash t, make_tables hash g = Ok t ->
  forall show_tok show_tok' tokens tokens' w w' ps ps' out out', (forall i, ~ In 10%N (show_tok i)) -> (forall i, ~ In 10%N (show_tok' i)) ->
  ended tokens w -> ended tokens' w' ->
  parse_output g t tokens show_tok = Some (Ok ps, out) -> parse_impl g t tokens = Ok ps ->
  parse_output g t tokens' show_tok' = Some (Ok ps', out') -> parse_impl g t tokens' = Ok ps' ->
  rules_named (printed out) = rules_named (printed out') ->
  w = w' /\ exists tr, parse_tree g (ap_name st) w tr /\ ps = postorder tr /\ ps' = postorder tr.
Proof.
  intros ast g st Hg Hs Heof Hf Hol Hcl Hnt hash t Ht show_tok show_tok' tokens tokens' w w' ps ps' out out' Hk Hk' He He' Ho Hp Ho' Hp' E.
  destruct (C95_accepted _ _ _ Hg Hs Heof Hf Hol _ _ Ht _ Hk _ _ _ He Hp) as (o & tr & b & E1 & Htr & Eps & R & _).
  destruct (C95_accepted _ _ _ Hg Hs Heof Hf Hol _ _ Ht _ Hk' _ _ _ He' Hp') as (o' & tr' & b' & E1' & Htr' & Eps' & R' & _).
  rewrite Ho in E1. injection E1 as <-. rewrite Ho' in E1'. injection E1' as <-. rewrite E, R' in R.
  pose proof (post_rules g tr (proj1 Htr)) as F. pose proof (post_rules g tr' (proj1 Htr')) as F'.
  assert (Epo : postorder tr' = postorder tr).
  { revert F F' R. generalize (postorder tr) (postorder tr'). clear -Hcl Hnt. intros l l'. revert l. induction l' as [|p l' IH]; intros [|q l] F F' R; try discriminate; auto.
    inversion F; subst. inversion F'; subst. injection R as R1 R2. f_equal; [|apply IH; auto]. apply Hnt; auto. apply written_inj; auto. }
  assert (tr' = tr) as ->. { eapply post_inj; [apply Htr'|apply Htr| |exact Epo]. destruct Htr as (_ & -> & _). apply Htr'. }
  destruct (grammar_from_ast_ok _ _ Hg) as (s' & _ & W & _).
  split; [|exists tr; auto]. apply (same_word g (ap_name s') w w' (yield tr)); auto; [apply Htr|apply Htr'].
Qed.
Print Assumptions C95_rules_tell_partial.

(** ** What all the lines tell *)
Lemma stack_inj s s' : show_stack s = show_stack s' -> s = s'.
Proof.
  Local Transparent show_stack. unfold show_stack. Local Opaque show_stack. intros E. apply app_inv_head, app_inj_tail in E as [E _]. 
  assert (G : forall l l', join (tx ", ") (map decn l) = join (tx ", ") (map decn l') -> l = l').
  { clear. assert (D : forall n, ~ In 44%N (decn n) /\ decn n <> []).
    { intros n. split; [|unfold decn, dec; intros E; destruct (N.to_uint (N.of_nat n)) eqn:Eu; try discriminate;
        pose proof (DecimalN.Unsigned.of_to (N.of_nat n)) as H; rewrite Eu in H; cbn in H; rewrite <- H in Eu; discriminate]. unfold decn, dec. generalize (N.to_uint (N.of_nat n)) as u. induction u; cbn; intuition discriminate. }
    assert (X : forall n m l, decn n <> decn m ++ tx ", " ++ l).
    { intros n m l E. apply (proj1 (D n)). rewrite E. apply in_or_app. right. left. reflexivity. }
    induction l as [|n [|n2 l] IH]; intros [|m [|m2 l']] E; auto; cbn [map join] in E.
    - symmetry in E. apply (proj2 (D m)) in E as [].
    - destruct (decn m) eqn:Em; [apply (proj2 (D m)) in Em as []|discriminate].
    - apply (proj2 (D n)) in E as [].
    - apply decn_inj in E. congruence.
    - apply X in E as [].
    - destruct (decn n) eqn:Em; [apply (proj2 (D n)) in Em as []|discriminate].
    - symmetry in E. apply X in E as [].
    - apply ParseGenEmit.split_first in E as [E1 E2]; [|apply D..]. apply decn_inj in E1. subst m. f_equal. apply IH. cbn in E2. injection E2 as E2. exact E2. }
  apply G in E. rewrite <- (rev_involutive s), E, rev_involutive. reflexivity.
Qed.
Section Whole.
  Variables (g : grammar) (start : str).
  Hypothesis W : wf_grammar g start.
  Hypothesis Hst : g_start g = aug_name start.
  Variables (hash : list item -> N) (t : tables).
  Hypothesis Ht : make_tables hash g = Ok t.
  Hypothesis Hf : start_fresh g.
  Let A : auto g t := tables_auto g start W Hst hash t Ht.

  Lemma entered i x j : trans g t i x j -> exists p d k, st t j p (S d) k.
  Proof using W Hst Ht Hf.
    intros ((p & d & k & Hj) & _ & Hpar & _).
    pose proof (st_grounded g start W hash t Ht _ _ _ _ Hj) as G. clear Hj.
    induction G as [p d k' H|H|p d q pq _ IH _ _]; eauto.
    exfalso. destruct (Hpar 0 0 _ H (wg_prod0 _ _ W)) as (p1 & d1 & k1 & _ & (pr1 & Hp1 & Hx1)).
    apply (Hf pr1 (nth_error_In _ _ Hp1)). rewrite Hst. eapply nth_error_In, Hx1.
  Qed.
  Lemma one_symbol i x i' x' j : trans g t i x j -> trans g t i' x' j -> x = x'.
  Proof using W Hst Ht Hf.
    intros H H'. destruct (entered _ _ _ H) as (p & d & k & Hj). destruct H as (_ & H & _). destruct H' as (_ & H' & _).
    destruct (H _ _ _ Hj) as [(pr & E1 & E2) _]. destruct (H' _ _ _ Hj) as [(pr' & E1' & E2') _]. congruence.
  Qed.

  Lemma alike_root tr tr' : alike g tr tr' -> root g tr = root g tr'.
  Proof.
    intros H. destruct H as [x|p q ts ts' Hn E _]; [reflexivity|]. unfold rule_of in E, Hn. cbn [root].
    destruct (nth_error (g_prods g) p), (nth_error (g_prods g) q); cbn in *; congruence.
  Qed.
  Lemma alike_yield tr : forall tr', alike g tr tr' -> yield tr = yield tr'.
  Proof.
    induction tr as [x|p ts IH] using tree_ind'; intros tr' H; inversion H as [|? ? ? ? _ _ HF]; subst; auto.
    cbn [yield]. clear H. induction HF as [|a b l l' Hab _ IHF]; auto. inversion IH; subst. cbn [flat_map]. f_equal; auto.
  Qed.

  Lemma forall2_firstn {X Y} (R : X -> Y -> Prop) n l l' : Forall2 R l l' -> Forall2 R (firstn n l) (firstn n l') /\ Forall2 R (skipn n l) (skipn n l').
  Proof. intros H. revert n. induction H as [|x y l l' Hxy H IH]; intros [|n]; cbn; auto. destruct (IH n). auto. Qed.
  Lemma forall2_rev {X Y} (R : X -> Y -> Prop) l l' : Forall2 R l l' -> Forall2 R (rev l) (rev l').
  Proof. induction 1; cbn; auto. apply Forall2_app; auto. Qed.

  (** One iteration: what it does and what it prints. *)
  Lemma step_cases tokens show s ts s1 : stacked g t (ps_stack s) ts -> parse_step g t tokens s = inl s1 ->
    exists top rest B, ps_stack s = top :: rest /\
    ((exists q x, ps_stack s1 = q :: top :: rest /\ trans g t top x q /\ terminal x /\ stacked g t (ps_stack s1) (Leaf x :: ts) /\ ps_trace s1 = ps_trace s /\
        print_step g t show s = [tx "STACK: " ++ show_stack (ps_stack s); B; tx "  shifting " ++ decn q]) \/
     (exists p pr q top' rest', nth_error (g_prods g) p = Some pr /\ length (p_syms pr) <= length ts /\ skipn (length (p_syms pr)) (ps_stack s) = top' :: rest' /\
        map (root g) (rev (firstn (length (p_syms pr)) ts)) = map Some (p_syms pr) /\
        ps_stack s1 = q :: top' :: rest' /\ trans g t top' (SNon (p_name pr)) q /\
        stacked g t (ps_stack s1) (Node p (rev (firstn (length (p_syms pr)) ts)) :: skipn (length (p_syms pr)) ts) /\ ps_trace s1 = ps_trace s ++ [p] /\
        print_step g t show s = [tx "STACK: " ++ show_stack (ps_stack s); B; tx "  reducing by " ++ show_prod pr;
          tx "  pushing (" ++ decn q ++ tx ") => STACK: " ++ show_stack (ps_stack s1)])).
  Proof using W Hst Ht.
    intros Hs. unfold parse_step, print_step. destruct (ps_stack s) as [|top rest] eqn:Es; [discriminate|].
    destruct (tbl_get (t_action t) top (ps_a s)) as [[q|p|]|] eqn:Ea; try discriminate.
    - unfold next_token. intros E. injection E as <-. apply (a_shift _ _ A) in Ea as (x & H1 & H2 & H3 & H4).
      do 3 eexists. split; [reflexivity|]. left. exists q, x. cbn [ps_stack ps_trace]. split; [reflexivity|]. split; auto. split; auto. split; [|split; reflexivity].
      eapply stk_push; [exact Hs|eassumption|constructor; assumption|reflexivity].
    - unfold get_production. apply (a_reduce _ _ A) in Ea as (Hne & d & (pr & Hp & ->) & Hk). rewrite Hp.
      destruct (back g t A _ _ _ _ _ _ Hs Hk) as (pr' & q' & s' & k' & Hp' & Hl & E & Hs' & Hm & Hk'). rewrite Hp in Hp'. injection Hp' as <-.
      pose proof (stacked_length _ _ _ _ Hs) as Hlen. rewrite firstn_all in Hm.
      destruct (Nat.ltb_spec (length (top :: rest)) (length (p_syms pr))) as [Hlt|_]; [lia|]. rewrite E.
      destruct (tbl_get (t_goto t) q' (p_name pr)) as [j|] eqn:Eg; [|discriminate]. intros X. injection X as <-.
      do 3 eexists. split; [reflexivity|]. right. exists p, pr, j, q', s'. cbn [ps_stack ps_trace]. pose proof (a_goto _ _ A _ _ _ Eg) as Htr.
      do 6 (split; auto). split; [|split; reflexivity].
      econstructor; eauto; [apply node_ok; auto; eapply stacked_ok; eauto|]. cbn [root]. rewrite Hp. reflexivity.
  Qed.

  Lemma stacked_roots stk : forall ts ts', stacked g t stk ts -> stacked g t stk ts' -> map (root g) ts = map (root g) ts'.
  Proof using W Hst Ht Hf.
    induction stk as [|j [|i s] IH]; intros ts ts' H H'; inversion H; subst; inversion H'; subst; auto.
    cbn [map]. f_equal; [|eapply IH; eauto].
    match goal with A1 : root g _ = Some ?x, A2 : root g _ = Some ?y, T1 : trans g t _ ?x _, T2 : trans g t _ ?y _ |- _ =>
      rewrite A1, A2; f_equal; exact (one_symbol _ _ _ _ _ T1 T2) end.
  Qed.
  Lemma stacked_same stk ts ts' : stacked g t stk ts -> stacked g t stk ts' -> flat_map postorder (rev ts) = flat_map postorder (rev ts') -> ts = ts'.
  Proof using W Hst Ht Hf.
    intros H H' E. apply (f_equal (@rev _)) in E. rewrite !flat_rev, !rev_involutive in E.
    refine (proj1 (post_inj_forest g ts _ ts' [] [] _ _ _ _)).
    - apply Forall_forall. intros tr _. apply post_inj_gen.
    - eapply stacked_ok; eauto.
    - eapply stacked_ok; eauto.
    - eapply stacked_roots; eauto.
    - rewrite E. reflexivity.
  Qed.

  (** A state with the trees on its stack. *)
  Let held (s : pstate) (ts : list tree) : Prop := stacked g t (ps_stack s) ts /\ ps_trace s = flat_map postorder (rev ts).
  Lemma alike_roots ts ts' : Forall2 (alike g) ts ts' -> map (root g) ts = map (root g) ts'.
  Proof. induction 1 as [|a b l l' Hab _ IH]; cbn; auto. rewrite IH, (alike_root _ _ Hab). reflexivity. Qed.
  Lemma map_some {X} (l l' : list X) : map Some l = map Some l' -> l = l'.
  Proof. revert l'. induction l as [|a l IH]; intros [|b l'] E; try discriminate; auto. injection E as -> E. f_equal; auto. Qed.
  Lemma no_paren n : ~ In 41%N (decn n).
  Proof. unfold decn, dec. generalize (N.to_uint (N.of_nat n)) as u. induction u; cbn; intuition discriminate. Qed.

  (** Two iterations that print the same. *)
  Lemma step_same tokens tokens' show show' s s' ts ts' s1 s1' l l' : ps_stack s = ps_stack s' -> held s ts -> held s' ts' -> Forall2 (alike g) ts ts' ->
    parse_step g t tokens s = inl s1 -> parse_step g t tokens' s' = inl s1' ->
    print_step g t show s ++ l = print_step g t show' s' ++ l' ->
    exists ts1 ts1', ps_stack s1 = ps_stack s1' /\ held s1 ts1 /\ held s1' ts1' /\ Forall2 (alike g) ts1 ts1' /\ l = l'.
  Proof using W Hst Ht Hf.
    intros Es [H HT] [H' HT'] Ha E1 E1' E.
    destruct (step_cases _ show _ _ _ H E1) as (top & rest & B & Eq & D). destruct (step_cases _ show' _ _ _ H' E1') as (top' & rest' & B' & Eq' & D').
    rewrite Es in Eq. rewrite Eq in Eq'. injection Eq' as <- <-.
    destruct D as [(q & x & Q1 & Q2 & Q3 & Q4 & Q5 & Q6)|(p & pr & q & u & v & P1 & P2 & P3 & P4 & P5 & P6 & P7 & P8 & P9)];
      destruct D' as [(q' & x' & Q1' & Q2' & Q3' & Q4' & Q5' & Q6')|(p' & pr' & q' & u' & v' & P1' & P2' & P3' & P4' & P5' & P6' & P7' & P8' & P9')].
    - rewrite Q6, Q6' in E. cbn [app] in E. injection E as _ _ E3 E. apply decn_inj in E3. subst q'.
      pose proof (one_symbol _ _ _ _ _ Q2 Q2') as <-. do 2 eexists. split; [congruence|]. split; [split; [exact Q4|]|].
      { rewrite Q5, HT. cbn [rev]. rewrite flat_map_app. cbn. rewrite app_nil_r. reflexivity. }
      split; [split; [exact Q4'|]|].
      { rewrite Q5', HT'. cbn [rev]. rewrite flat_map_app. cbn. rewrite app_nil_r. reflexivity. }
      split; auto. constructor; [constructor|auto].
    - exfalso. rewrite Q6, P9' in E. cbn [app] in E. discriminate E.
    - exfalso. rewrite P9, Q6' in E. cbn [app] in E. discriminate E.
    - rewrite P9, P9' in E. cbn [app] in E. injection E as _ _ _ E4 E.
      apply (split_first 41%N (decn q) (decn q') (tx " => STACK: " ++ show_stack (ps_stack s1)) (tx " => STACK: " ++ show_stack (ps_stack s1'))) in E4 as [E4 E5]; [|apply no_paren..].
      apply decn_inj in E4. subst q'. apply app_inv_head, stack_inj in E5. rewrite P5, P5' in E5. injection E5 as <- <-.
      pose proof (one_symbol _ _ _ _ _ P6 P6') as En. injection En as En.
      pose proof (stacked_length _ _ _ _ H) as L. pose proof (stacked_length _ _ _ _ H') as L'. rewrite Es in L, P3.
      assert (En2 : length (p_syms pr') = length (p_syms pr)).
      { apply (f_equal (@length _)) in P3. apply (f_equal (@length _)) in P3'. rewrite skipn_length in P3, P3'. lia. }
      destruct (forall2_firstn _ (length (p_syms pr)) _ _ Ha) as [Ha1 Ha2]. apply forall2_rev in Ha1. pose proof (alike_roots _ _ Ha1) as Hr.
      rewrite En2 in *. rewrite P4, P4' in Hr. apply map_some in Hr.
      assert (PO : forall p (l : list tree) k, flat_map postorder (rev (Node p (rev (firstn k l)) :: skipn k l)) = flat_map postorder (rev l) ++ [p]).
      { clear. intros p l k. cbn [rev]. rewrite flat_map_app. cbn [flat_map postorder]. rewrite app_nil_r, app_assoc, <- flat_map_app, <- rev_app_distr, firstn_skipn. reflexivity. }
      do 2 eexists. split; [congruence|]. split; [split; [exact P7|rewrite P8, HT, PO; reflexivity]|].
      split; [split; [exact P7'|rewrite P8', HT', PO; reflexivity]|]. split; auto. constructor; auto. constructor; auto.
      + unfold rule_of. rewrite P1. discriminate.
      + unfold rule_of. rewrite P1, P1'. cbn. congruence.
  Qed.

  (** What an iteration that accepts prints. *)
  Lemma end_shape tokens show c ps : parse_step g t tokens c = inr (Ok ps) -> exists x y, print_step g t show c = [x; y; tx "Accepting!"].
  Proof.
    unfold parse_step, print_step. destruct (ps_stack c) as [|top rest]; [discriminate|].
    destruct (tbl_get (t_action t) top (ps_a c)) as [[q|p|]|] eqn:Ea; [unfold next_token; discriminate| |eauto|discriminate].
    destruct (get_production g p) as [pr|]; [|discriminate]. destruct (length (top :: rest) <? length (p_syms pr)); [discriminate|].
    destruct (skipn (length (p_syms pr)) (top :: rest)) as [|top' r']; [discriminate|]. destruct (tbl_get (t_goto t) top' (p_name pr)); discriminate.
  Qed.
  Lemma go_shape tokens show s ts s1 : stacked g t (ps_stack s) ts -> parse_step g t tokens s = inl s1 ->
    exists x y z l, print_step g t show s = x :: y :: (tx "  " ++ z) :: l.
  Proof using W Hst Ht.
    intros H E. destruct (step_cases _ show _ _ _ H E) as (top & rest & B & _ & [(q & x & _ & _ & _ & _ & _ & ->)|(p & pr & q & u & v & _ & _ & _ & _ & _ & _ & _ & _ & ->)]).
    - exists (tx "STACK: " ++ show_stack (ps_stack s)), B, (tx "shifting " ++ decn q), []. reflexivity.
    - eexists _, B, (tx "reducing by " ++ show_prod pr), _. reflexivity.
  Qed.

  Lemma runs_same tokens tokens' show show' n s c : nsteps (parse_step g t tokens) n s c -> forall n' s' c' ts ts' ps ps' l l',
    nsteps (parse_step g t tokens') n' s' c' -> ps_stack s = ps_stack s' -> held s ts -> held s' ts' -> Forall2 (alike g) ts ts' ->
    parse_step g t tokens c = inr (Ok ps) -> parse_step g t tokens' c' = inr (Ok ps') ->
    lines_for g t tokens show n s ++ print_step g t show c ++ l = lines_for g t tokens' show' n' s' ++ print_step g t show' c' ++ l' ->
    exists us us', held c us /\ held c' us' /\ Forall2 (alike g) us us'.
  Proof using W Hst Ht Hf.
    induction 1 as [s|n s s1 c Hs _ IH]; intros n' s' c' ts ts' ps ps' l l' Hn' Es H H' Ha Hc Hc' E;
      destruct Hn' as [s'|n' s' s1' c' Hs' Hn']; cbn [lines_for app] in E.
    - eauto.
    - exfalso. rewrite Hs' in E. destruct (end_shape _ show _ _ Hc) as (x & y & Ex). destruct (go_shape _ show' _ _ _ (proj1 H') Hs') as (x' & y' & z & r & Ex').
      rewrite Ex, Ex' in E. cbn [app] in E. discriminate E.
    - exfalso. rewrite Hs in E. destruct (end_shape _ show' _ _ Hc') as (x & y & Ex). destruct (go_shape _ show _ _ _ (proj1 H) Hs) as (x' & y' & z & r & Ex').
      rewrite Ex, Ex' in E. cbn [app] in E. discriminate E.
    - rewrite Hs, Hs', <- !app_assoc in E.
      destruct (step_same _ _ _ _ _ _ _ _ _ _ _ _ Es H H' Ha Hs Hs' E) as (ts1 & ts1' & Es1 & H1 & H1' & Ha1 & E1).
      eapply IH; eauto.
  Qed.
End Whole.

(** All the lines together always tell the text: two accepted texts for which the parser prints the
    same are the same sequence of tokens, however the tokens are shown. *)
Theorem C95_output_tells :
  forall ast g st, grammar_from_ast ast = Ok g -> find ap_start ast = Some st -> eof_free g -> start_fresh g -> one_line g ->
  forall hash t, make_tables hash g = Ok t ->
  forall show_tok show_tok' tokens tokens' w w' ps ps' out out', (forall i, ~ In 10%N (show_tok i)) -> (forall i, ~ In 10%N (show_tok' i)) ->
  ended tokens w -> ended tokens' w' ->
  parse_output g t tokens show_tok = Some (Ok ps, out) -> parse_impl g t tokens = Ok ps ->
  parse_output g t tokens' show_tok' = Some (Ok ps', out') -> parse_impl g t tokens' = Ok ps' ->
  printed out = printed out' -> w = w'.
Proof.
  intros ast g st Hg Hs Heof Hf Hol hash t Ht show_tok show_tok' tokens tokens' w w' ps ps' out out' Hk Hk' He He' Ho Hp Ho' Hp' E.
  destruct (grammar_from_ast_ok _ _ Hg) as (s' & Hs' & W & Hst & _). rewrite Hs in Hs'. injection Hs' as <-.
  pose proof (tables_auto g _ W Hst hash t Ht) as A.
  assert (R : forall show tokens w ps out, (forall i, ~ In 10%N (show i)) -> ended tokens w -> parse_output g t tokens show = Some (Ok ps, out) -> parse_impl g t tokens = Ok ps ->
    exists a n c ts, nsteps (parse_step g t tokens) n (parse_init a) c /\ parse_step g t tokens c = inr (Ok ps) /\ inv g t tokens w c ts /\ ps_i c = length w /\
      out = lines_for g t tokens show n (parse_init a) ++ print_step g t show c ++ at_end_of n (Ok ps) /\ lines_of (printed out) = out).
  { clear -A W Hst Heof Hol. intros show tokens w ps out Hk He Ho Hp. destruct (inv_init g t tokens w He) as (a & tl & Et & H0).
    destruct (run_of g t tokens a tl Et) as (n & c & Hn & Hc); [congruence|]. rewrite Hp in Hc.
    destruct (output_run g t tokens show a tl n c (Ok ps) Et Hn Hc) as [_ Ho2]; [congruence|]. rewrite Ho in Ho2.
    assert (Eo : out = lines_for g t tokens show n (parse_init a) ++ print_step g t show c ++ at_end_of n (Ok ps)) by congruence.
    destruct (inv_run g _ W Hst t A tokens w He Heof n _ _ _ H0 Hn) as [ts HI]. exists a, n, c, ts.
    assert (Ha : ps_a c = 0).
    { pose proof (step_outcome g t A tokens c ts (proj1 HI)) as O. rewrite Hc in O. inversion O; auto. }
    pose proof HI as (_ & _ & Hi & Hia & _). rewrite Ha in Hia. repeat (split; auto).
    - apply (at_end tokens w He _ Hi Hia).
    - apply lines_printed. rewrite Eo. apply Forall_app. split; [apply lines_no_nl; auto|]. apply Forall_app. split; [apply step_no_nl; auto|apply end_no_nl]. }
  destruct (R _ _ _ _ _ Hk He Ho Hp) as (a & n & c & ts & Hn & Hc & HI & Hi & Eo & El).
  destruct (R _ _ _ _ _ Hk' He' Ho' Hp') as (a' & n' & c' & ts' & Hn' & Hc' & HI' & Hi' & Eo' & El').
  rewrite E, El' in El. rewrite Eo, Eo' in El. clear R. symmetry in El.
  assert (H0 : forall a, stacked g t (ps_stack (parse_init a)) [] /\ ps_trace (parse_init a) = flat_map postorder (rev [])) by (split; [constructor|reflexivity]).
  destruct (runs_same g _ W Hst hash t Ht Hf tokens tokens' show_tok show_tok' n _ _ Hn n' _ _ [] [] ps ps' _ _ Hn' eq_refl (H0 _) (H0 _) (Forall2_nil _) Hc Hc' El)
    as (us & us' & [K KT] & [K' KT'] & HA).
  destruct HI as (J & JT & _ & _ & Jy). destruct HI' as (J' & JT' & _ & _ & Jy').
  assert (us = ts) as ->. { eapply (stacked_same g _ W Hst hash t Ht Hf); eauto. congruence. }
  assert (us' = ts') as ->. { eapply (stacked_same g _ W Hst hash t Ht Hf); eauto. congruence. }
  rewrite Hi, firstn_all in Jy. rewrite Hi', firstn_all in Jy'.
  apply (same_word g (ap_name st) w w' (flat_map yield (rev ts))); auto.
  replace (flat_map yield (rev ts)) with (flat_map yield (rev ts')); auto.
  apply forall2_rev in HA. clear -HA. induction HA as [|x y l l' H _ IH]; auto. cbn [flat_map]. rewrite IH. f_equal. symmetry. eapply alike_yield; eauto.
Qed.
Print Assumptions C95_output_tells.

(** The stack is printed from its bottom to its top: it begins as [0]; a shift adds the state to the
    end of what is printed; a reduction takes something off the end and then adds the state, and
    this is what the next iteration prints. *)
Lemma stack_text a b : a <> [] -> show_stack (b ++ a) = tx "[" ++ join (tx ", ") (map decn (rev a)) ++ flat_map (fun k => tx ", " ++ decn k) (rev b) ++ tx "]".
Proof.
  Local Transparent show_stack. unfold show_stack. Local Opaque show_stack. intros Ha. f_equal. rewrite app_assoc. f_equal. rewrite rev_app_distr, map_app.
  assert (G : forall l l', l <> [] -> join (tx ", ") (map decn l ++ map decn l') = join (tx ", ") (map decn l) ++ flat_map (fun k => tx ", " ++ decn k) l').
  { clear. intros l l'. revert l. induction l' as [|k l' IH]; intros l Hl; [cbn [map flat_map]; rewrite !app_nil_r; reflexivity|].
    replace (map decn l ++ map decn (k :: l')) with (map decn (l ++ [k]) ++ map decn l') by (rewrite map_app, <- app_assoc; reflexivity).
    rewrite IH by (destruct l; discriminate). cbn [flat_map]. rewrite app_assoc. f_equal. clear -Hl.
    induction l as [|x [|y l] IH]; [contradiction|reflexivity|]. cbn [app map join] in *. rewrite IH by discriminate. rewrite <- !app_assoc. reflexivity. }
  apply G. intros E. apply Ha. rewrite <- (rev_involutive a), E. reflexivity.
Qed.
Theorem C95_stack :
  forall ast g, grammar_from_ast ast = Ok g -> forall hash t, make_tables hash g = Ok t ->
  forall tokens show_tok a, (exists l, print_step g t show_tok (parse_init a) = tx "STACK: [0]" :: l) /\
  forall n s s1, nsteps (parse_step g t tokens) n (parse_init a) s -> parse_step g t tokens s = inl s1 ->
  exists shown off q next l1, (forall show', exists l, print_step g t show' s1 = (tx "STACK: [" ++ next ++ tx "]") :: l) /\ next = shown ++ tx ", " ++ decn q /\
    print_step g t show_tok s = (tx "STACK: [" ++ shown ++ off ++ tx "]") :: l1 /\
    (off = [] /\ nth_error l1 1 = Some (tx "  shifting " ++ decn q) \/
     nth_error l1 2 = Some (tx "  pushing (" ++ decn q ++ tx ") => STACK: [" ++ next ++ tx "]")).
Proof.
  intros ast g Hg hash t Ht tokens show_tok a. destruct (grammar_from_ast_ok _ _ Hg) as (st & _ & W & Hst & _). split.
  { unfold print_step. cbn [parse_init ps_stack]. eexists. reflexivity. }
  intros n s s1 Hn E1.
  assert (HS : exists ts, stacked g t (ps_stack s) ts).
  { assert (K : forall n s s' ts, stacked g t (ps_stack s) ts -> nsteps (parse_step g t tokens) n s s' -> exists ts', stacked g t (ps_stack s') ts').
    { clear -W Hst Ht. intros n s s' ts Hs Hn. revert ts Hs. induction Hn as [s|n s s1 s2 E _ IH]; intros ts Hs; eauto.
      destruct (step_cases g _ W Hst hash t Ht tokens (fun _ => []) s ts s1 Hs E) as (top & rest & B & _ & [(q & x & _ & _ & _ & H & _)|(p & pr & q & u & v & _ & _ & _ & _ & _ & _ & H & _)]); eauto. }
    exact (K n (parse_init a) s [] (stk_base g t) Hn). }
  destruct HS as [ts HS].
  assert (F : forall s0 x r, ps_stack s0 = x :: r -> forall show', exists l, print_step g t show' s0 = (tx "STACK: " ++ show_stack (x :: r)) :: l).
  { clear. intros s0 x r E show'. unfold print_step. rewrite E. eexists. reflexivity. }
  destruct (step_cases g _ W Hst hash t Ht tokens show_tok s ts s1 HS E1) as (top & rest & B & Es & [(q & x & Q1 & _ & _ & _ & _ & Q6)|(p & pr & q & u & v & _ & _ & P3 & _ & P5 & _ & _ & _ & P9)]).
  - exists (join (tx ", ") (map decn (rev (top :: rest)))), [], q. do 2 eexists. split; [|split; [reflexivity|split]].
    + intros show'. destruct (F _ _ _ Q1 show') as [l ->]. exists l. f_equal.
      change (q :: top :: rest) with ([q] ++ top :: rest). rewrite stack_text by discriminate. cbn [rev app flat_map]. rewrite app_nil_r, <- !app_assoc. reflexivity.
    + rewrite Q6, Es. change (show_stack (top :: rest)) with (show_stack ([] ++ top :: rest)). rewrite stack_text by discriminate. cbn [rev flat_map app]. reflexivity.
    + left. split; reflexivity.
  - rewrite <- (firstn_skipn (length (p_syms pr)) (ps_stack s)), P3 in P9.
    exists (join (tx ", ") (map decn (rev (u :: v)))), (flat_map (fun k => tx ", " ++ decn k) (rev (firstn (length (p_syms pr)) (ps_stack s)))), q. do 2 eexists.
    split; [|split; [reflexivity|split]].
    + intros show'. destruct (F _ _ _ P5 show') as [l ->]. exists l. f_equal.
      change (q :: u :: v) with ([q] ++ u :: v). rewrite stack_text by discriminate. cbn [rev app flat_map]. rewrite app_nil_r, <- !app_assoc. reflexivity.
    + rewrite P9, stack_text by discriminate. reflexivity.
    + right. cbn [nth_error]. rewrite P5. change (q :: u :: v) with ([q] ++ u :: v). rewrite stack_text by discriminate. cbn [rev app flat_map]. rewrite app_nil_r, <- !app_assoc. reflexivity.
Qed.
Print Assumptions C95_stack.

(** How much is printed: three lines for a leaf, four for a node, four at the end. *)
Lemma lines_count g t tokens show_tok n s s' : nsteps (parse_step g t tokens) n s s' ->
  length (lines_for g t tokens show_tok n s) + 3 * ps_i s + 4 * length (ps_trace s) = 3 * ps_i s' + 4 * length (ps_trace s').
Proof.
  induction 1 as [s|n s s1 s2 E _ IH]; [reflexivity|]. cbn [lines_for]. rewrite E, app_length.
  enough (length (print_step g t show_tok s) + 3 * ps_i s + 4 * length (ps_trace s) = 3 * ps_i s1 + 4 * length (ps_trace s1)) by lia.
  revert E. clear. unfold parse_step, print_step. destruct (ps_stack s) as [|top rest]; [discriminate|].
  destruct (tbl_get (t_action t) top (ps_a s)) as [[q|p|]|]; try discriminate.
  - unfold next_token. intros E. injection E as <-. cbn [ps_i ps_trace length]. lia.
  - destruct (get_production g p) as [pr|]; [|discriminate]. destruct (length (top :: rest) <? length (p_syms pr)); [discriminate|].
    destruct (skipn (length (p_syms pr)) (top :: rest)) as [|top' r']; [discriminate|].
    destruct (tbl_get (t_goto t) top' (p_name pr)) as [q|]; [|discriminate]. intros E. injection E as <-. cbn [ps_i ps_trace length].
    rewrite app_length. cbn [length]. lia.
Qed.
Theorem C95_length :
  forall ast g st, grammar_from_ast ast = Ok g -> find ap_start ast = Some st -> eof_free g -> start_fresh g ->
  forall hash t, make_tables hash g = Ok t ->
  forall show_tok tokens w ps, ended tokens w -> parse_impl g t tokens = Ok ps ->
  exists out, parse_output g t tokens show_tok = Some (Ok ps, out) /\ length out = 3 * length w + 4 * length ps + 4.
Proof.
  intros ast g st Hg Hs Heof Hf hash t Ht show_tok tokens w ps Hend Hp.
  destruct (grammar_from_ast_ok _ _ Hg) as (s' & Hs' & W & Hst & _).
  pose proof (tables_auto g _ W Hst hash t Ht) as A.
  destruct (inv_init g t tokens w Hend) as (a & tl & Et & H0).
  destruct (run_of g t tokens a tl Et) as (n & c & Hn & Hc); [congruence|]. rewrite Hp in Hc.
  destruct (output_run g t tokens show_tok a tl n c (Ok ps) Et Hn Hc) as [_ Ho]; [congruence|].
  destruct (inv_run g _ W Hst t A tokens w Hend Heof n _ _ _ H0 Hn) as [ts HI].
  assert (Ha : ps_a c = 0).
  { pose proof (step_outcome g t A tokens c ts (proj1 HI)) as O. rewrite Hc in O. inversion O; auto. }
  destruct HI as (HI & _ & Hi & Hia & _). rewrite Ha in Hia. pose proof (at_end tokens w Hend _ Hi Hia) as Ei.
  destruct (end_shape g t tokens show_tok c ps Hc) as (x & y & Ex).
  assert (Etr : ps_trace c = ps).
  { pose proof (step_outcome g t A tokens c ts HI) as O. rewrite Hc in O. inversion O; auto. }
  pose proof (lines_count g t tokens show_tok _ _ _ Hn) as L. cbn [parse_init ps_i ps_trace length] in L.
  eexists. split; [exact Ho|]. rewrite !app_length, Ex. cbn [length at_end_of]. rewrite Ei, Etr in L. lia.
Qed.
Print Assumptions C95_length.

(** ** Why the conditions are needed, and a case *)
Definition one_line_b (g : grammar) : bool :=
  forallb (fun p => negb (existsb (N.eqb 10) (p_name p)) && forallb (fun x => negb (existsb (N.eqb 10) (show_sym x))) (p_syms p)) (g_prods g).
Lemma has_not c (l : str) : negb (existsb (N.eqb c) l) = true -> ~ In c l.
Proof. intros H Hi. apply negb_true_iff in H. rewrite <- not_true_iff_false in H. apply H, existsb_exists. exists c. split; auto. apply N.eqb_refl. Qed.
Lemma one_line_b_ok g : one_line_b g = true -> one_line g.
Proof.
  unfold one_line_b, one_line. rewrite forallb_forall. intros H p Hp. apply H, andb_true_iff in Hp as [H1 H2]. split; [apply has_not; auto|].
  rewrite forallb_forall in H2. intros x Hx. apply has_not. auto.
Qed.
Definition syms_of (g : grammar) : list sym := flat_map p_syms (g_prods g).
Definition clear_b (g : grammar) : bool :=
  forallb (fun p => negb (existsb (N.eqb 32) (p_name p))) (g_prods g) &&
  forallb (fun x => negb (existsb (N.eqb 32) (show_sym x)) && negb (eqb (show_sym x) [])) (syms_of g) &&
  forallb (fun x => forallb (fun y => negb (eqb (show_sym x) (show_sym y)) || eqb x y) (syms_of g)) (syms_of g).
Lemma clear_b_ok g : clear_b g = true -> clear g.
Proof.
  unfold clear_b, clear. rewrite !andb_true_iff, !forallb_forall. intros [[H1 H2] H3].
  assert (I : forall p x, In p (g_prods g) -> In x (p_syms p) -> In x (syms_of g)) by (intros p x Hp Hx; apply in_flat_map; eauto).
  split.
  - intros p Hp. split; [apply has_not, H1, Hp|]. intros x Hx. pose proof (H2 x (I _ _ Hp Hx)) as H. apply andb_true_iff in H as [H H'].
    split; [|apply has_not, H]. intros E. rewrite E in H'. discriminate H'.
  - intros p q x y Hp Hq Hx Hy E. pose proof (H3 x (I _ _ Hp Hx)) as H. rewrite forallb_forall in H. specialize (H y (I _ _ Hq Hy)).
    apply orb_true_iff in H as [H|H]; [|apply Base.eqb_eq, H]. apply negb_true_iff in H. rewrite E in H.
    rewrite (proj2 (Base.eqb_eq _ _) eq_refl) in H. discriminate H.
Qed.
Fixpoint nodup_b (l : list (str * list sym)) : bool := match l with [] => true | x :: l => negb (existsb (eqb x) l) && nodup_b l end.
Definition no_rule_twice_b (g : grammar) : bool := nodup_b (map (fun pr => (p_name pr, p_syms pr)) (g_prods g)).
Lemma no_rule_twice_b_ok g : no_rule_twice_b g = true -> no_rule_twice g.
Proof.
  unfold no_rule_twice_b, no_rule_twice, rule_of. intros H p q. rewrite <- !nth_error_map. set (l := map _ (g_prods g)) in *. intros Hp E.
  apply (proj1 (NoDup_nth_error l)); auto; [|apply nth_error_Some; auto]. clear -H. revert H. generalize l. clear l. induction l as [|x l IH]; intros H; constructor; cbn [nodup_b] in H; apply andb_true_iff in H as [H1 H2]; auto.
  intros Hi. apply negb_true_iff in H1. rewrite <- not_true_iff_false in H1. apply H1, existsb_exists. exists x. split; auto. apply Base.eqb_eq. reflexivity.
Qed.

Local Ltac compute_ok := vm_compute; reflexivity.
Local Ltac witness w Eg Et :=
  exists w; destruct (grammar_from_ast w) as [g| |] eqn:Eg; [|vm_compute in Eg; discriminate Eg..];
  destruct (make_tables ehash g) as [t| |] eqn:Et; [|vm_compute in Eg; injection Eg as <-; vm_compute in Et; discriminate Et..];
  exists g, t.
Local Ltac open Eg Et := vm_compute in Eg; injection Eg as <-; vm_compute in Et; injection Et as <-.

(** The lines that name rules do not tell the text if symbols contain spaces: S -> "a b" | "a" "b". *)
Definition w95 : list aprod := [AProd [83]%N [ABody [IStr [97; 32; 98]%N] []; ABody [IStr [97]%N; IStr [98]%N] []] true []].
Theorem C95_rules_tell_refuted :
  exists ast g t, tables_of ast g t /\ eof_free g /\ start_fresh g /\ one_line g /\ no_rule_twice g /\
  exists w w' out out' ps ps', ended (w ++ [0]) w /\ ended (w' ++ [0]) w' /\ w <> w' /\ ps <> ps' /\
    parse_impl g t (w ++ [0]) = Ok ps /\ parse_output g t (w ++ [0]) (fun _ => []) = Some (Ok ps, out) /\
    parse_impl g t (w' ++ [0]) = Ok ps' /\ parse_output g t (w' ++ [0]) (fun _ => []) = Some (Ok ps', out') /\
    rules_named (printed out) = rules_named (printed out').
Proof.
  witness w95 Eg Et. split; [apply tables_of_any; auto|]. open Eg Et.
  split; [apply eof_free_b_ok; reflexivity|]. split; [apply start_fresh_b_ok; reflexivity|]. split; [apply one_line_b_ok; reflexivity|]. split; [apply no_rule_twice_b_ok; reflexivity|].
  exists [2], [1; 3]. do 4 eexists. split; [split; [reflexivity|simpl; intuition discriminate]|]. split; [split; [reflexivity|simpl; intuition discriminate]|].
  split; [discriminate|]. split; [|do 4 (split; [compute_ok|])]; [|compute_ok]. discriminate.
Qed.
Print Assumptions C95_rules_tell_refuted.

(** A literal with a line end makes the parser name a rule that the grammar does not have. *)
Definition w95_forged : list aprod := [AProd [83]%N [ABody [IStr ([97; 10]%N ++ tx "  reducing by X")] []] true []].
Theorem C95_forged_refuted :
  exists ast g t, tables_of ast g t /\ eof_free g /\ start_fresh g /\
  exists w ps out r, ended (w ++ [0]) w /\ parse_impl g t (w ++ [0]) = Ok ps /\ parse_output g t (w ++ [0]) (fun _ => []) = Some (Ok ps, out) /\
    In r (rules_named (printed out)) /\ forall p, rule_of g p <> None -> r <> written_rule g p.
Proof.
  witness w95_forged Eg Et. split; [apply tables_of_any; auto|]. open Eg Et.
  split; [apply eof_free_b_ok; reflexivity|]. split; [apply start_fresh_b_ok; reflexivity|].
  exists [1]. do 2 eexists. exists (tx "X"). split; [split; [reflexivity|simpl; intuition discriminate]|]. split; [compute_ok|]. split; [compute_ok|].
  split; [vm_compute; auto|]. intros [|[|p]] Hp; [discriminate..|]. unfold rule_of in Hp. cbn in Hp. destruct p; contradiction.
Qed.
Print Assumptions C95_forged_refuted.

(** S -> C C; C -> "c" C | "d" and the text c d c d: the conditions hold, and what is printed names
    the rules in the order of the tree. *)
Example C95_nonvacuous : exists g t st, tables_of w_cc g t /\ find ap_start w_cc = Some st /\ eof_free g /\ start_fresh g /\ one_line g /\ clear g /\ no_rule_twice g /\
  ended [1; 2; 1; 2; 0] [1; 2; 1; 2] /\ parse_impl g t [1; 2; 1; 2; 0] = Ok [3; 2; 3; 2; 1] /\
  (exists out, parse_output g t [1; 2; 1; 2; 0] (fun i => decn i) = Some (Ok [3; 2; 3; 2; 1], out) /\ length out = 36 /\
    nth_error out 0 = Some (tx "STACK: [0]") /\ nth_error out 35 = Some (tx "LOOP COUNT: 10")) /\
  (forall i, ~ In 10%N (decn i)) /\
  parse_impl g t [1; 1; 0] = Panic PInvalidToken.
Proof.
  destruct (grammar_from_ast w_cc) as [g| |] eqn:Eg; [|vm_compute in Eg; discriminate Eg..].
  destruct (make_tables ehash g) as [t| |] eqn:Et; [|vm_compute in Eg; injection Eg as <-; vm_compute in Et; discriminate Et..].
  eexists g, t, _. split; [apply tables_of_any; auto|]. split; [reflexivity|]. open Eg Et.
  split; [apply eof_free_b_ok; reflexivity|]. split; [apply start_fresh_b_ok; reflexivity|]. split; [apply one_line_b_ok; reflexivity|].
  split; [apply clear_b_ok; reflexivity|]. split; [apply no_rule_twice_b_ok; reflexivity|].
  split; [split; [reflexivity|simpl; intuition discriminate]|]. split; [compute_ok|].
  split; [eexists; split; [compute_ok|]; split; [compute_ok|split; compute_ok]|]. split; [intros i; apply decn_no_nl|]. compute_ok.
Qed.
