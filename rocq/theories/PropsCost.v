(** Property C63: what lexing, parsing and building the lexer cost. *)
From Verif Require Import Base Regex Nfa NfaProofs Overlap OverlapProofs OverlapLaminar
  Dfa DfaProofs Lex LexSpec LexLoop NfaLive LexNfa LexProofs PropsLex.
From Verif Require Import Grammar GrammarSpec GrammarProofs Item ItemSpec ItemProofs Table TableSpec TableFacts Parse ParseSpec TreeFacts
  Auto ParseProofs ParseTerm GrammarCheck Cost Witness.

(** ** C63 *)

(** Lexing: the loop, which is the one of lex.rs:167-209, ends, and for [n] characters it comes round at most
    [n (n + 1) / 2] times. *)
Theorem C63_lex_quadratic :
  forall L input, exists k s,
    nsteps (lex_step L input) k (LState [] 0 0 0 None) s /\ lex_step L input s = inr (lex L input) /\
    2 * k <= length input * (length input + 1).
Proof.
  intros L input. destruct (lex_ends L input) as (k & s & H1 & H2 & H3). exists k, s. split; auto. split; auto.
  pose proof (tri_spec (length input)). lia.
Qed.
Print Assumptions C63_lex_quadratic.

(** The tokens [a] and [a*b]. *)
Definition ex_quad : list (token_def * hir) :=
  [ex_tok [97] (HLit 97); ex_tok [98] (HConcat [HRep ZeroOrMore (HLit 97); HLit 98])]%N.

Lemma nth_repeat {A} (x : A) l m i : i < m -> nth_error (repeat x m ++ l) i = Some x.
Proof. revert i. induction m as [|m IH]; intros [|i] H; simpl; try lia; auto. apply IH. lia. Qed.
Lemma nth_after {A} (x y : A) m : nth_error (repeat x m ++ [y]) m = Some y.
Proof. induction m; simpl; auto. Qed.

Section Quad.
  Variable L : lexer.
  Hypothesis HL : from_tokens ex_quad = Ok L.
  Variable m : nat.
  Let input := repeat 97%N m ++ [33]%N.

  Lemma quad_first ts b : b < m ->
    lex_step L input (LState ts 0 b b None) = inl (LState ts 1 b (S b) (Some (b, 2))).
  Proof.
    intros Hb. unfold lex_step. cbn [ls_forward]. unfold input. rewrite nth_repeat by auto.
    clear input. vm_compute in HL. injection HL as <-. reflexivity.
  Qed.
  Lemma quad_next ts q b f o : f < m -> q = 1 \/ q = 3 ->
    lex_step L input (LState ts q b f o) = inl (LState ts 3 b (S f) o).
  Proof.
    intros Hf Hq. unfold lex_step. cbn [ls_forward]. unfold input. rewrite nth_repeat by auto.
    clear input. vm_compute in HL. injection HL as <-. destruct Hq as [-> | ->]; reflexivity.
  Qed.
  Lemma quad_all ts b o : forall j f q, f + j = m -> q = 1 \/ q = 3 ->
    exists q', (q' = 1 \/ q' = 3) /\ nsteps (lex_step L input) j (LState ts q b f o) (LState ts q' b m o).
  Proof.
    induction j as [|j IH]; intros f q E Hq.
    - replace m with f by lia. exists q. split; auto. constructor.
    - destruct (IH (S f) 3) as (q' & Hq' & Hn); [lia|auto|]. exists q'. split; auto. econstructor; [|exact Hn]. apply quad_next; auto. lia.
  Qed.
  Lemma quad_back ts q b : b < m -> q = 1 \/ q = 3 ->
    lex_step L input (LState ts q b m (Some (b, 2))) = inl (LState (ts ++ [Token [97]%N (Some [97]%N)]) 0 (b + 1) (b + 1) None).
  Proof.
    intros Hb Hq.
    assert (Hs : byte_slice input b (b + 1) = Ok [97]%N).
    { pose proof (byte_slice_ascii (repeat 97%N b) [97]%N (repeat 97%N (m - b - 1) ++ [33]%N)) as H.
      rewrite repeat_length in H. cbn [length] in H. replace input with (repeat 97%N b ++ [97]%N ++ repeat 97%N (m - b - 1) ++ [33]%N).
      - apply H. apply Forall_app. split; [|repeat constructor; lia]. clear. induction b; simpl; constructor; auto. lia.
      - unfold input. rewrite !app_assoc. f_equal. change [97]%N with (repeat 97%N 1). rewrite <- !repeat_app. f_equal. lia. }
    unfold lex_step. cbn [ls_forward ls_last ls_begin ls_state]. unfold make_tok. rewrite Hs. unfold input. rewrite nth_after.
    clear Hs input. vm_compute in HL. injection HL as <-. destruct Hq as [-> | ->]; reflexivity.
  Qed.
  Lemma quad_stop ts : exists r, lex_step L input (LState ts 0 m m None) = inr r.
  Proof.
    unfold lex_step. cbn [ls_forward ls_last ls_begin ls_state]. unfold input. rewrite nth_after.
    clear input. vm_compute in HL. injection HL as <-. eexists. reflexivity.
  Qed.

  Lemma quad_run : forall j b ts, b + j = m -> exists k s r,
    nsteps (lex_step L input) k (LState ts 0 b b None) s /\ lex_step L input s = inr r /\ 2 * (k + 1) = (j + 1) * (j + 2).
  Proof.
    induction j as [|j IH]; intros b ts E.
    - replace b with m by lia. destruct (quad_stop ts) as [r Er]. exists 0, (LState ts 0 m m None), r. split; [constructor|auto].
    - destruct (quad_all ts b (Some (b, 2)) j (S b) 1) as (q' & Hq' & Hn); [lia|auto|].
      destruct (IH (b + 1) (ts ++ [Token [97]%N (Some [97]%N)])) as (k & s & r & Hk & Er & Hc); [lia|].
      exists (S (j + S k)), s, r. split; [|split; auto; nia]. econstructor; [apply quad_first; lia|].
      eapply nsteps_trans; [exact Hn|]. econstructor; [apply quad_back; auto; lia|]. exact Hk.
  Qed.
End Quad.

(** It is not linear, even for two tokens: after [n] times [a] and a character that begins nothing, the
    loop has come round [(n + 1)(n + 2) / 2 - 1] times, one less than the bound. *)
Theorem C63_lex_linear_refuted :
  exists tokens L, from_tokens tokens = Ok L /\
    (forall n, exists input k s r, length input = n + 1 /\
       nsteps (lex_step L input) k (LState [] 0 0 0 None) s /\ lex_step L input s = inr r /\
       2 * (k + 1) = length input * (length input + 1)) /\
    (forall C, exists input k s, nsteps (lex_step L input) k (LState [] 0 0 0 None) s /\ C * (length input + 1) < k).
Proof.
  exists ex_quad. destruct (from_tokens ex_quad) as [L| |] eqn:HL; [|vm_compute in HL; discriminate HL..].
  exists L. split; auto.
  assert (H1 : forall n, exists input k s r, length input = n + 1 /\
       nsteps (lex_step L input) k (LState [] 0 0 0 None) s /\ lex_step L input s = inr r /\
       2 * (k + 1) = length input * (length input + 1)).
  { intros n. destruct (quad_run L HL n n 0 [] eq_refl) as (k & s & r & Hk & Er & Hc).
    eexists _, k, s, r. split; [|split; [exact Hk|split; [exact Er|]]]; rewrite app_length, repeat_length; cbn [length]; [auto|nia]. }
  split; [exact H1|]. intros C. destruct (H1 (2 * C + 1)) as (input & k & s & r & Hl & Hk & _ & Hc).
  exists input, k, s. split; auto. rewrite Hl in *. nia.
Qed.
Print Assumptions C63_lex_linear_refuted.

(** Parsing [n] tokens, without the trailing end of input, takes at most [(2 n + 1)(p + 2)] steps for
    [p] productions if it ends at all, and the stack never has more than [n + 1] entries.  Missing: that it
    ends (C31). *)
Theorem C63_parse_linear_partial :
  forall ast g, grammar_from_ast ast = Ok g -> plain g -> forall hash t, make_tables hash g = Ok t ->
  forall tokens w, ended tokens w -> exists a, nth_error tokens 0 = Some a /\
    (forever g t tokens (parse_init a) \/
     exists k c, nsteps (parse_step g t tokens) k (parse_init a) c /\ parse_step g t tokens c = inr (parse_impl g t tokens) /\
       k <= (2 * length w + 1) * (length (g_prods g) + 2)) /\
    (forall k c, nsteps (parse_step g t tokens) k (parse_init a) c -> length (ps_stack c) <= ps_i c + 1 <= length w + 1).
Proof.
  intros ast g Hg [He Heof] hash t Ht tokens w Hend. destruct (grammar_from_ast_ok _ _ Hg) as (s & _ & W & Hst & _).
  pose proof (tables_auto g _ W Hst hash t Ht) as A.
  destruct (parse_cost g _ W t A He Heof tokens w Hend) as (a & Ea & H). exists a. split; auto. split.
  - destruct H as [H|(k & c & H1 & H2 & H3)]; [auto|]. right. exists k, c. auto.
  - intros k c Hk. destruct (parse_depth g _ W t A He Heof tokens w Hend k a c Ea Hk). lia.
Qed.
Print Assumptions C63_parse_linear_partial.

(** Building the lexer: the NFA has a fixed number of states for each part of the expressions, hence
    linearly many, and the automaton at most [2 ^ n] for an NFA with [n]. *)
Theorem C63_lexer_states :
  (forall h n, from_regex h = Ok n -> length (states n) = 2 + hsize h) /\
  (forall tokens n tmap, lex_nfa tokens = Ok (n, tmap) ->
     length (states n) = 1 + list_sum (map (fun t => 2 + hsize (snd t)) tokens)) /\
  (forall n d, LexProofs.built n -> from_nfa n = Ok d -> length (d_first d) <= 2 ^ length (states n)) /\
  (forall tokens L, from_tokens tokens = Ok L ->
     length (d_first (lx_dfa L)) <= 2 ^ (1 + list_sum (map (fun t => 2 + hsize (snd t)) tokens))).
Proof.
  assert (H3 : forall n d, LexProofs.built n -> from_nfa n = Ok d -> length (d_first d) <= 2 ^ length (states n)).
  { intros n d Hb Ed. destruct (C05_from_nfa_terminates n Hb) as (d' & sets & E & Hnd & Hl & Hs & _).
    rewrite Ed in E. injection E as <-.
    rewrite Hl, <- (seq_length (length (states n)) 0). apply ssorted_count; auto; [apply ssorted_seq|].
    intros q Hq. split; [apply Hs, Hq|]. intros x Hx. apply in_seq. split; [lia|]. apply (Hs q Hq). auto. }
  split; [exact from_regex_nst|]. split; [exact lex_nfa_nst|]. split; [exact H3|].
  intros tokens L HL. unfold from_tokens in HL. apply bind_ok in HL as ((n & tmap) & E1 & E2).
  apply bind_ok in E2 as (d & E2 & E3). injection E3 as <-. cbn [lx_dfa].
  rewrite <- (lex_nfa_nst _ _ _ E1). apply H3; auto. eapply built_lexer; eauto.
Qed.
Print Assumptions C63_lexer_states.

(** And it can be that many: for [(a|b)*a(a|b)...(a|b)], with [k] times [(a|b)] at the end, there are at
    least [2 ^ (k + 1)] states. *)
Theorem C63_dfa_polynomial_refuted :
  forall td k, hsize (kth_from_end k) = 3 * k + 6 /\
  exists L, from_tokens [(td, kth_from_end k)] = Ok L /\ 2 ^ (k + 1) <= length (d_first (lx_dfa L)).
Proof.
  intros td k. split.
  { cbn. induction k as [|k IH]; [reflexivity|]. cbn. cbn in IH. lia. }
  destruct (proj2 (C05_lexer_built_iff [(td, kth_from_end k)])) as [L HL].
  - intros td' h [E|[]]. injection E as <- <-. apply from_regex_ok_iff. left. intros (x & Hx & Hbad).
    assert (Hab : forall y, subterm y ab -> y = ab) by (intros y H; inversion H; auto).
    assert (Hok : x <> HEmpty /\ ~ unsupported x).
    { unfold kth_from_end in Hx. inversion Hx as [|? ? h H1|? h H1|? h hs Hin H1|? h hs Hin H1]; subst; [split; [discriminate|auto]|].
      destruct Hin as [<-|[<-|Hin]].
      - inversion H1 as [|? ? h H2|? h H2|? h hs Hin H2|? h hs Hin H2]; subst; [split; [discriminate|auto]|].
        apply Hab in H2. subst x. split; [discriminate|auto].
      - inversion H1; subst. split; [discriminate|auto].
      - apply repeat_spec in Hin. subst h. apply Hab in H1. subst x. split; [discriminate|auto]. }
    destruct Hbad; tauto.
  - exists L. split; auto. rewrite Nat.add_1_r. eapply kth_states; eauto.
Qed.
Print Assumptions C63_dfa_polynomial_refuted.

(** The hypotheses are met: by a grammar of C28, and by the tokens of C05. *)
Example C63_nonvacuous :
  (exists ast g t w, grammar_from_ast ast = Ok g /\ plain g /\ make_tables ehash g = Ok t /\ ended (w ++ [0]) w /\ 2 <= length w /\
     exists tr, parse_impl g t (w ++ [0]) = Ok tr) /\
  (exists L, from_tokens ex_tokens = Ok L /\ 4 <= length (d_first (lx_dfa L)) /\
     exists ts, lex L [105; 102; 32; 120]%N = Ok ts /\ length ts = 2).
Proof.
  split.
  - exists w28. destruct (grammar_from_ast w28) as [g| |] eqn:Eg; [|vm_compute in Eg; discriminate Eg..].
    destruct (make_tables ehash g) as [t| |] eqn:Et; [|vm_compute in Eg; injection Eg as <-; vm_compute in Et; discriminate Et..].
    exists g, t, [9; 3; 2; 6]. split; auto.
    split; [vm_compute in Eg; injection Eg as <-; split; [apply eps_free_b_ok|apply eof_free_b_ok]; reflexivity|].
    split; [exact Et|]. split; [split; [reflexivity|simpl; intuition discriminate]|]. split; [simpl; lia|].
    vm_compute in Eg. injection Eg as <-. vm_compute in Et. injection Et as <-. vm_compute. eauto.
  - destruct (from_tokens ex_tokens) as [L| |] eqn:E; [|vm_compute in E; discriminate E..]. exists L. split; auto.
    vm_compute in E. injection E as <-. split; [vm_compute; lia|]. vm_compute. eauto.
Qed.
