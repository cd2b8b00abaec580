(** Property C97, for the parsers of grammar files. *)
From Coq Require Import String.
From Verif Require Import Base Text Regex Nfa Dfa Lex Grammar GrammarSpec GrammarProofs First Item ItemSpec GrammarCheck Table TableSpec LexGrammar
  Parse ParseSpec ParseCheck Report ReportSpec ReportProofs Lalr EndSpec EndProofs GrammarFile GrammarFileSpec Lisp Witness CompleteProofs
  PropsGrammar PropsTable PropsParse PropsReport PropsGrammarFile PropsWhole PropsOutcome PropsComplete PropsCheck PropsRegularStack HeightSpec PropsHeight PropsHeightExact PropsHeightCheck.
Local Open Scope list_scope.

(** The parser of a grammar file: the check on the grammar tells whether its stack is bounded on every
    text.  If it is not, and no transition is missing, no number is enough for all sentences. *)
Theorem C97_file :
  forall parse hash text l, build parse hash text = Ok l -> exists ast st, file_says text ast /\ find ap_start ast = Some st /\
  (later_b (l_grammar l) (ap_name st) = false -> forall input ts conv a n c, lex (l_lexer l) input = Ok ts -> convert_tokens (l_lexer l) ts = Ok conv ->
     nth_error (map snd conv) 0 = Some a -> nsteps (parse_step (l_grammar l) (l_tables l) (map snd conv)) n (parse_init a) c ->
     length (ps_stack c) <= 1 + longest (l_grammar l) + (longest (l_grammar l) - 1) * length (g_prods (l_grammar l))) /\
  (later_b (l_grammar l) (ap_name st) = true -> all_productive (l_grammar l) -> complete_b (l_grammar l) (l_tables l) = true ->
     forall m, exists tokens w ps a n c, ended tokens w /\ sentence (l_grammar l) (ap_name st) w /\ parse_impl (l_grammar l) (l_tables l) tokens = Ok ps /\
       nth_error tokens 0 = Some a /\ nsteps (parse_step (l_grammar l) (l_tables l) tokens) n (parse_init a) c /\ m < length (ps_stack c)).
Proof.
  intros parse hash text l Hb. unfold build in Hb. apply bind_ok in Hb as (ast & Ea & H). apply bind_ok in H as (g & Hg & Hl).
  pose proof (C52_file_ast _ _ Ea) as Hf. destruct (new_parts _ _ _ _ Hl) as (Eg & EL & Et). rewrite Eg in *.
  destruct (file_plain _ _ Hf Hg) as [Hp Hfr]. destruct (grammar_from_ast_ok _ _ Hg) as (st & Hs & W & _).
  exists ast, st. split; [apply C51_reading, Ea|]. split; auto. destruct (C97_decided _ _ _ Hg Hs Hfr _ _ Et) as [D1 D2]. split.
  - intros Hb input ts conv a n c _ _ _ Hn. eapply D1; eauto.
  - intros Hb Hpr Hc. apply D2; auto. apply (complete_b_iff g _ _ W (proj2 Hp)), Hc.
Qed.
Print Assumptions C97_file.

(** A file with a left-linear grammar, and Lisp, whose lists can be nested. *)
Example C97_file_nonvacuous :
  (exists l ast st, build reg ehash file_left = Ok l /\ parse_grammar file_left = Ok ast /\ find ap_start ast = Some st /\ later_b (l_grammar l) (ap_name st) = false) /\
  (exists l ast st, build lisp_regex ehash lisp_text = Ok l /\ parse_grammar lisp_text = Ok ast /\ find ap_start ast = Some st /\ later_b (l_grammar l) (ap_name st) = true /\
     all_productive (l_grammar l) /\ complete_b (l_grammar l) (l_tables l) = true).
Proof.
  split.
  - destruct (build reg ehash file_left) as [l| |] eqn:E; [|vm_compute in E; discriminate E..]. exists l.
    destruct (parse_grammar file_left) as [ast| |] eqn:Ea; [|vm_compute in Ea; discriminate Ea..]. exists ast.
    destruct (find ap_start ast) as [st|] eqn:Es; [|clear -Ea Es; vm_compute in Ea; injection Ea as <-; discriminate Es]. exists st.
    split; auto. split; auto. split; auto. vm_compute in E. injection E as <-. vm_compute in Ea. injection Ea as <-. injection Es as <-. vm_compute. reflexivity.
  - destruct (build lisp_regex ehash lisp_text) as [l| |] eqn:E; [|vm_compute in E; discriminate E..]. exists l.
    destruct (parse_grammar lisp_text) as [ast| |] eqn:Ea; [|vm_compute in Ea; discriminate Ea..]. exists ast.
    destruct (find ap_start ast) as [st|] eqn:Es; [|clear -Ea Es; vm_compute in Ea; injection Ea as <-; discriminate Es]. exists st.
    split; auto. split; auto. split; auto. vm_compute in E. injection E as <-. vm_compute in Ea. injection Ea as <-. injection Es as <-. split; [vm_compute; reflexivity|]. split; [|vm_compute; reflexivity].
    set (E := Node 5 [Leaf (Grammar.SStr (tx "add"))]). set (L := Node 3 [E]). apply (productive_b_ok _ [E; L; Node 1 [Leaf (Grammar.SStr (tx "(")); L; Leaf (Grammar.SStr (tx ")"))]]). vm_compute. reflexivity.
Qed.
