(** Property C75: how high the stack gets, and texts. *)
From Coq Require Import String.
From Verif Require Import Base Text Regex Nfa NfaProofs Dfa Lex LexSpec LexNfa LexProofs Grammar GrammarSpec GrammarProofs First Item ItemSpec ItemProofs ItemPlain
  GrammarCheck Table TableSpec MergeProofs TableProofs TableFacts LexGrammar LexGrammarProofs Parse ParseSpec ParseCheck TreeFacts Auto ParseProofs ParseTerm ParseCycle ParseComplete
  Report ReportSpec ReportProofs ReportExact Lalr EndSpec EndProofs Utf8Spec Utf8Proofs GrammarFile GrammarFileSpec Witness PrintSpec
  PropsLex PropsGrammar PropsTable PropsParse PropsReport PropsEnd PropsGrammarFile PropsWhole PropsOutcome PropsParseEnd PropsPrint CompleteProofs PropsComplete
  RegularSpec PropsRegular PropsCheck PropsTrace.
Local Open Scope list_scope.

(** The length of the longest body. *)
Definition longest (g : grammar) : nat := fold_right Nat.max 0 (map (fun p => length (p_syms p)) (g_prods g)).
Lemma longest_ge g p : In p (g_prods g) -> length (p_syms p) <= longest g.
Proof. unfold longest. induction (g_prods g) as [|q l IH]; intros []; cbn [map fold_right]; [subst; lia|]. specialize (IH H). lia. Qed.

Section Left.
  Variables (g : grammar) (start : str).
  Hypothesis W : wf_grammar g start.
  Hypothesis Hst : g_start g = aug_name start.
  Variables (hash : list item -> N) (t : tables).
  Hypothesis Ht : make_tables hash g = Ok t.
  Hypothesis Hf : start_fresh g.
  Hypothesis Hl : left_linear g.
  Let A : auto g t := tables_auto g start W Hst hash t Ht.

  (** Where a rule begins, the start does. *)
  Lemma left_begins i p d : grounded g t i p d -> d = 0 -> st t i 0 0 0.
  Proof using Hl.
    induction 1 as [p d k H|H|p d q pq _ IH Hs Hq]; [discriminate|auto|]. intros _. apply IH.
    destruct Hs as (pr & Hp & Hx). pose proof (at_split _ _ _ Hx) as E. apply (Hl pr (nth_error_In _ _ Hp)) in E.
    destruct d; auto. destruct (p_syms pr); [discriminate Hx|discriminate E].
  Qed.
  Lemma left_bottom s ts q : stacked g t (q :: s) ts -> st t q 0 0 0 -> s = [].
  Proof using W Hst Ht Hf.
    intros Hs H. inversion Hs as [|q0 q1 s0 ts0 tr x H0 Htr Ho Hr]; subst; auto. exfalso. destruct Htr as (_ & _ & Hpar & _).
    destruct (Hpar 0 0 _ H (wg_prod0 _ _ W)) as (p1 & d1 & k1 & _ & (pr1 & Hp1 & Hx1)).
    apply (Hf pr1 (nth_error_In _ _ Hp1)). rewrite Hst. eapply nth_error_In, Hx1.
  Qed.
  Lemma left_height s ts : stacked g t s ts -> length s <= S (longest g).
  Proof using W Hst Ht Hf Hl.
    intros Hs. pose proof Hs as Hs'. destruct Hs as [|q q' s ts tr x H Htr Ho Hr]; [cbn; lia|].
    destruct Htr as ((p & d & k & Hi) & _). destruct (back g t A d _ _ _ _ _ Hs' Hi) as (pr & q2 & s2 & k2 & Hp & Hd & E & H2 & _ & H3).
    assert (s2 = []) as ->.
    { eapply left_bottom; [exact H2|]. eapply left_begins; [eapply (st_grounded g start W hash t Ht); exact H3|reflexivity]. }
    destruct (a_dom _ _ A _ _ _ _ Hi) as (pr' & Hp' & Hd'). rewrite Hp in Hp'. injection Hp' as <-.
    apply (f_equal (@length _)) in E. rewrite skipn_length in E. pose proof (longest_ge g pr (nth_error_In _ _ Hp)) as L. cbn [length] in *. lia.
  Qed.
  Lemma left_run tokens n s s' ts : stacked g t (ps_stack s) ts -> nsteps (parse_step g t tokens) n s s' -> exists ts', stacked g t (ps_stack s') ts'.
  Proof using W Hst Ht.
    intros Hs Hn. revert ts Hs. induction Hn as [s|n s s1 s2 E _ IH]; intros ts Hs; eauto.
    destruct (step_cases g start W Hst hash t Ht tokens (fun _ => []) s ts s1 Hs E) as (top & rest & B & _ & [(q & x & _ & _ & _ & H & _)|(p & pr & q & u & v & _ & _ & _ & _ & _ & _ & H & _)]); eauto.
  Qed.
End Left.

(** If names stand only at the beginning of bodies, the stack never has more entries than one and the
    length of the longest body, however long the input is. *)
Theorem C75_left_stack :
  forall ast g, grammar_from_ast ast = Ok g -> start_fresh g -> left_linear g ->
  forall hash t, make_tables hash g = Ok t ->
  forall tokens a n c, nsteps (parse_step g t tokens) n (parse_init a) c -> length (ps_stack c) <= S (longest g).
Proof.
  intros ast g Hg Hf Hl hash t Ht tokens a n c Hn. destruct (grammar_from_ast_ok _ _ Hg) as (st & _ & W & Hst & _).
  destruct (left_run g _ W Hst hash t Ht tokens n (parse_init a) c [] (stk_base g t) Hn) as [ts Hs].
  eapply (left_height g _ W Hst hash t Ht Hf Hl); eauto.
Qed.
Print Assumptions C75_left_stack.

(** If they stand at the end, it may have one more entry than the input has tokens: S -> a S | b. *)
Theorem C75_right_stack :
  exists g t, tables_of w75r g t /\ right_linear g /\ forall n, exists w c, ended (w ++ [0]) w /\ length w = S n /\ sentence g [83]%N w /\
    nsteps (parse_step g t (w ++ [0])) (S n) (parse_init (hd 0 w)) c /\ length (ps_stack c) = S (S n).
Proof.
  destruct (grammar_from_ast w75r) as [g| |] eqn:Eg; [|vm_compute in Eg; discriminate Eg..].
  destruct (make_tables ehash g) as [t| |] eqn:Et; [|vm_compute in Eg; injection Eg as <-; vm_compute in Et; discriminate Et..].
  exists g, t. split; [apply tables_of_any; auto|].
  assert (K : exists i j, tbl_get (t_action t) 0 1 = Some (Shift i) /\ tbl_get (t_action t) i 1 = Some (Shift i) /\ tbl_get (t_action t) 0 2 = Some (Shift j) /\ tbl_get (t_action t) i 2 = Some (Shift j))
    by (vm_compute in Eg; injection Eg as <-; vm_compute in Et; injection Et as <-; do 2 eexists; repeat split; vm_compute; reflexivity).
  destruct K as (i & j & K1 & K2 & K3 & K4). clear Et. split; [clear -Eg; apply linear_b_right; vm_compute in Eg; injection Eg as <-; vm_compute; reflexivity|].
  assert (R1 : rule g [83]%N [Grammar.SStr [97]%N; SNon [83]%N]) by (clear -Eg; vm_compute in Eg; injection Eg as <-; eexists; split; [right; left; reflexivity|split; reflexivity]).
  assert (R2 : rule g [83]%N [Grammar.SStr [98]%N]) by (clear -Eg; vm_compute in Eg; injection Eg as <-; eexists; split; [right; right; left; reflexivity|split; reflexivity]).
  assert (T1 : nth_error (g_tokens g) 1 = Some (Grammar.SStr [97]%N) /\ nth_error (g_tokens g) 2 = Some (Grammar.SStr [98]%N)) by (clear -Eg; vm_compute in Eg; injection Eg as <-; split; reflexivity).
  destruct T1 as [T1 T2]. clear Eg. intros n. set (w := repeat 1 n ++ [2]). set (tokens := w ++ [0]).
  assert (Hnth : forall k, k < n -> nth_error tokens k = Some 1).
  { intros k Hk. unfold tokens, w. rewrite <- app_assoc, nth_error_app1 by (rewrite repeat_length; auto). rewrite (nth_error_nth' _ 0) by (rewrite repeat_length; auto).
    f_equal. apply repeat_spec with (n := n), nth_In. rewrite repeat_length. auto. }
  assert (Hn2 : nth_error tokens n = Some 2) by (unfold tokens, w; rewrite <- app_assoc, nth_error_app2 by (rewrite repeat_length; auto); rewrite repeat_length, Nat.sub_diag; reflexivity).
  assert (Hhd : nth_error tokens 0 = Some (hd 0 w)) by (unfold tokens, w; destruct n; reflexivity).
  assert (HS : forall top rest k x q a', (x = 1 \/ x = 2) -> tbl_get (t_action t) top x = Some (Shift q) -> nth_error tokens (S k) = Some a' ->
    nsteps (parse_step g t tokens) 1 (PState (top :: rest) k x []) (PState (q :: top :: rest) (S k) a' [])).
  { intros top rest k x q a' _ Ha Hk. econstructor; [|constructor]. unfold parse_step. cbn [ps_stack ps_a ps_i ps_trace]. rewrite Ha. unfold next_token. rewrite Hk. reflexivity. }
  assert (HR : forall k, k <= n -> exists a rest, nth_error tokens k = Some a /\ length rest = k /\
    nsteps (parse_step g t tokens) k (parse_init (hd 0 w)) (PState ((if k =? 0 then 0 else i) :: rest) k a [])).
  { induction k as [|k IH]; intros Hk; [exists (hd 0 w), []; split; auto; split; auto; constructor|].
    destruct IH as (a & rest & Ha & Hr & Hs); [lia|]. rewrite Hnth in Ha by lia. injection Ha as <-.
    destruct (nth_error tokens (S k)) as [a'|] eqn:Ea'.
    - exists a', ((if k =? 0 then 0 else i) :: rest). split; auto. split; [cbn; lia|]. replace (S k) with (k + 1) at 1 by lia. eapply nsteps_trans; [exact Hs|].
      cbn [Nat.eqb]. apply HS; auto. destruct k; [exact K1|exact K2].
    - exfalso. destruct (Nat.eq_dec (S k) n) as [E|E]; [rewrite E in Ea'; congruence|rewrite Hnth in Ea' by lia; discriminate]. }
  destruct (HR n (Nat.le_refl _)) as (a & rest & Ha & Hr & Hs). rewrite Hn2 in Ha. injection Ha as <-.
  assert (Hn3 : nth_error tokens (S n) = Some 0).
  { unfold tokens, w. rewrite <- app_assoc, nth_error_app2 by (rewrite repeat_length; auto). rewrite repeat_length. replace (S n - n) with 1 by lia. reflexivity. }
  exists w, (PState (j :: (if n =? 0 then 0 else i) :: rest) (S n) 0 []). split.
  { split; [reflexivity|]. unfold w. intros H. apply in_app_or in H as [H|[H|[]]]; [apply repeat_spec in H|]; discriminate. }
  split; [unfold w; rewrite app_length, repeat_length; cbn; lia|]. split.
  - exists (repeat (Grammar.SStr [97]%N) n ++ [Grammar.SStr [98]%N]). split; [|split].
    + unfold symbols, w. rewrite !map_app. cbn [map]. rewrite T2. f_equal. clear -T1. induction n as [|n IH]; cbn [repeat map]; auto. rewrite T1, IH. reflexivity.
    + apply Forall_app. split; [|constructor; [discriminate|constructor]]. apply Forall_forall. intros x Hx. apply repeat_spec in Hx. subst x. discriminate.
    + assert (D : forall m c, derives g (c ++ [SNon [83]%N]) (c ++ repeat (Grammar.SStr [97]%N) m ++ [Grammar.SStr [98]%N])).
      { clear -R1 R2. induction m as [|m IH]; intros c.
        - eapply derives_step; [apply (derives1_intro g c _ _ [] R2)|]. rewrite app_nil_r. constructor.
        - eapply derives_step; [apply (derives1_intro g c _ _ [] R1)|]. rewrite app_nil_r. specialize (IH (c ++ [Grammar.SStr [97]%N])). rewrite <- !app_assoc in IH. exact IH. }
      apply (D n []).
  - split; [|cbn; lia]. replace (S n) with (n + 1) at 1 by lia. eapply nsteps_trans; [exact Hs|]. apply HS; auto. destruct n; [exact K3|exact K4].
Qed.
Print Assumptions C75_right_stack.

(** The parser of a grammar file whose grammar is regular: if the texts of the terminals are as they
    should be (no literal written like a regex, ranges as in C09, no empty class), every text is
    answered as C93 says.  Nothing needs to be known of the tables. *)
Theorem C75_file :
  forall parse hash text l hs, build parse hash text = Ok l -> regular (l_grammar l) ->
  no_clash (l_grammar l) -> Forall2 (fun x h => sym_hir parse x = Some h) (lex_syms (l_grammar l)) hs -> split_refines hs -> Forall productive hs ->
  exists ast st, file_says text ast /\ grammar_from_ast ast = Ok (l_grammar l) /\ find ap_start ast = Some st /\
  unambiguous (l_grammar l) (ap_name st) /\
  forall input, exists ts rest syms, Tokenize (begins parse (l_grammar l)) (is_sym parse (l_grammar l)) 0 input ts rest /\
    Forall2 (fun x s => nth_error (lex_syms (l_grammar l)) (snd (fst x)) = Some s) ts syms /\
    (~ sliced input (map drop_idx ts) -> lalr_parse l input = Panic PSlice) /\
    (ascii input -> sliced input (map drop_idx ts)) /\
    (sliced input (map drop_idx ts) ->
      (exists tr, tree_ok (l_grammar l) tr /\ root (l_grammar l) tr = Some (SNon (ap_name st)) /\ yield tr = syms /\ lalr_parse l input = Ok (postorder tr)) \/
      (~ derives (l_grammar l) [SNon (ap_name st)] syms /\ lalr_parse l input = Panic PInvalidToken)).
Proof.
  intros parse hash text l hs Hb Hr Hn Eh Hsp Hpr.
  assert (Hcl : closed (l_grammar l) (l_tables l)).
  { unfold build in Hb. apply bind_ok in Hb as (ast & Ea & Hb). apply bind_ok in Hb as (g & Hg & Hl).
    destruct (new_parts _ _ _ _ Hl) as (Eg & _ & Ht). rewrite <- Eg in *. destruct (file_plain _ _ (C52_file_ast _ _ Ea) Hg) as [Hp _].
    eapply C75_closed; eauto. apply Hp. }
  destruct (C93_settled _ _ _ _ hs Hb Hn Eh Hsp Hpr Hcl) as (ast & st & H1 & H2 & H3 & H4 & H5). exists ast, st. do 4 (split; auto).
  intros input. destruct (H5 input) as (ts & rest & syms & K1 & _ & K2). exists ts, rest, syms. auto.
Qed.
Print Assumptions C75_file.

(** S -> S a | b as a file: the conditions hold, so a, baa and so on are answered as the theorem says;
    the stack of S -> S a | b never has more than three entries. *)
Definition file_left : str := lines [tx "export start S: (T) = ["; tx "<x: S> ""a"" => (x),"; tx """b"" => (x)"; tx "]"].
Example C75_file_nonvacuous : exists l hs, build reg ehash file_left = Ok l /\ left_linear (l_grammar l) /\ start_fresh (l_grammar l) /\ no_clash (l_grammar l) /\
  Forall2 (fun x h => sym_hir reg x = Some h) (lex_syms (l_grammar l)) hs /\ split_refines hs /\ Forall productive hs /\
  longest (l_grammar l) = 2 /\ lalr_parse l (tx "b a a") = Ok [2; 1; 1] /\ lalr_parse l (tx "a b") = Panic PInvalidToken.
Proof.
  destruct (build reg ehash file_left) as [l| |] eqn:E; [|vm_compute in E; discriminate E..].
  destruct (hirs reg (lex_syms (l_grammar l))) as [hs|] eqn:Eh; [|exfalso; vm_compute in E; injection E as <-; vm_compute in Eh; discriminate Eh].
  assert (Hsp : split_b hs && forallb hir_ok_b hs = true) by (clear -E Eh; vm_compute in E; injection E as <-; vm_compute in Eh; injection Eh as <-; vm_compute; reflexivity).
  apply andb_true_iff in Hsp as [Hsp Hok].
  exists l, hs. split; auto.
  split; [clear -E; vm_compute in E; injection E as <-; apply linear_b_left; vm_compute; reflexivity|].
  split; [clear -E; vm_compute in E; injection E as <-; apply start_fresh_b_ok; vm_compute; reflexivity|].
  split; [clear -E; vm_compute in E; injection E as <-; apply no_clash_b_ok; vm_compute; reflexivity|].
  split; [apply hirs_ok, Eh|]. split; [apply split_b_ok, Hsp|].
  split; [apply Forall_forall; intros h Hin; rewrite forallb_forall in Hok; apply hir_ok_productive; auto|].
  clear -E. vm_compute in E. injection E as <-. split; [vm_compute; reflexivity|]. split; vm_compute; reflexivity.
Qed.
