(** Property C78: rules that begin and end with the name they define. *)
From Coq Require Import Ascii String.
From Verif Require Import Base Text Regex Nfa Dfa Lex LexSpec LexLoop LexProofs Utf8Spec Utf8Proofs Grammar GrammarSpec GrammarProofs GrammarCheck First FirstProofs Item ItemSpec ItemProofs ItemPlain
  Table TableSpec TableProofs TableFacts Witness LexGrammar LexGrammarProofs PropsGrammar PropsItem PropsTable Parse ParseSpec ParseCheck TreeFacts Auto ParseProofs
  ParseTerm ParseComplete PropsParse CommonSpec PropsCommon Lalr EndSpec EndProofs PropsEnd GrammarFile PropsGrammarFile OperatorSpec OperatorProofs.
Local Open Scope list_scope.

Local Ltac compute_ok := vm_compute; reflexivity.
Local Ltac open Eg Et := vm_compute in Eg; injection Eg as <-; vm_compute in Et; injection Et as <-.
Local Ltac wf_ok Eg := vm_compute in Eg; injection Eg as <-;
  split; [split; [apply eps_free_b_ok|apply eof_free_b_ok]|apply start_fresh_b_ok]; reflexivity.

(** An accepted text is an accepted sequence of tokens. *)
Lemma text_tokens parse hash ast g l : file_ast ast -> grammar_from_ast ast = Ok g -> lalr_new parse hash g = Ok l -> no_clash g ->
  make_tables hash g = Ok (l_tables l) /\
  forall input ps, lalr_parse l input = Ok ps -> exists tokens w, ended tokens w /\ parse_impl g (l_tables l) tokens = Ok ps.
Proof.
  intros Hf Hg Hl Hno. destruct (new_parts _ _ _ _ Hl) as (_ & HL & Ht). split; [exact Ht|]. intros input ps Hps. destruct (from_grammar_inv _ _ _ HL) as (tokens & Et & EL).
  destruct (lex_any tokens _ input EL) as (ts & r & Hlay & Hin & El & _).
  assert (Hts : forall p i u, In (p, i, u) ts -> exists td h, nth_error tokens i = Some (td, h)).
  { intros p i u Hx. destruct (Hin p i u Hx) as (_ & td & h & H & _). eauto. }
  destruct (slice_all tokens input ts (with_values _ _ _ Et) Hts) as [[Hsl [out Eo]]|[Hsl Eo]].
  - destruct (parse_tokens _ _ _ _ _ Hg Hl tokens Et Hno input ts out El (eq_trans El Eo) Hts) as (syms' & w & HF' & Hw & Hend & Htm & Ep).
    exists (w ++ [0]), w. split; auto. congruence.
  - exfalso. rewrite Eo in El. unfold lalr_parse in Hps. rewrite El in Hps. discriminate.
Qed.

(** ** C78 *)

(** Nothing or a name before the last E: no tables are built, if the rule can be reached. *)
Theorem C78_no_tables :
  forall ast g, grammar_from_ast ast = Ok g -> eps_free g ->
  forall p m, reachable g p -> both_ends g p m -> name_last m ->
  forall hash t, make_tables hash g <> Ok t.
Proof. intros ast g Hg He p m Hr (pr & Hp & Es) Hn hash t Ht. exact (no_tables ast g Hg He hash t Ht p m pr Hr Hp Es Hn). Qed.
Print Assumptions C78_no_tables.

(** Nothing or a name before the last E, or a token after the first: whatever the parser accepts,
    it does not use the rule. *)
Theorem C78_unused_partial :
  forall ast g st, grammar_from_ast ast = Ok g -> find ap_start ast = Some st -> plain g -> start_fresh g ->
  forall hash t, make_tables hash g = Ok t ->
  forall p m, both_ends g p m -> token_first m \/ name_last m ->
  forall tokens w ps, ended tokens w -> parse_impl g t tokens = Ok ps -> ~ In p ps.
Proof.
  intros ast g s Hg Hs [He Heof] Hf hash t Ht p m Hb Hm tokens w ps Hend Hps.
  destruct (grammar_from_ast_ok _ _ Hg) as (s' & Hs' & W & Hst & _). rewrite Hs in Hs'. injection Hs' as <-.
  apply (C30_accepts_iff _ _ _ Hg Hs (conj He Heof) Hf _ _ Ht _ _ _ Hend) in Hps as (tr & j & (Ho & Hr & _) & Hmv & ->).
  exact (both_unused ast g _ Hg W Hst He hash t Ht p m Hb Hm tr _ _ Hmv Ho).
Qed.
Print Assumptions C78_unused_partial.

(** The same for texts, and for the alternatives of C74. *)
Theorem C78_unused_text_partial :
  forall parse hash ast g st l, file_ast ast -> grammar_from_ast ast = Ok g -> find ap_start ast = Some st -> lalr_new parse hash g = Ok l -> no_clash g ->
  forall p m, both_ends g p m -> token_first m \/ name_last m ->
  forall input ps, lalr_parse l input = Ok ps -> ~ In p ps.
Proof.
  intros parse hash ast g s l Hf Hg Hs Hl Hno p m Hb Hm input ps Hps. destruct (C36_file_grammars _ _ Hf Hg) as [Hp Hfr].
  destruct (text_tokens _ _ _ _ _ Hf Hg Hl Hno) as [Ht H]. destruct (H _ _ Hps) as (tokens & w & Hend & E).
  exact (C78_unused_partial _ _ _ Hg Hs Hp Hfr _ _ Ht _ _ Hb Hm _ _ _ Hend E).
Qed.
Print Assumptions C78_unused_text_partial.
Theorem C74_text_refuted :
  forall parse hash ast g st l, file_ast ast -> grammar_from_ast ast = Ok g -> find ap_start ast = Some st -> lalr_new parse hash g = Ok l -> no_clash g ->
  forall p q d x, same_beginning g p q d x ->
  forall input ps, lalr_parse l input = Ok ps -> ~ In p ps /\ ~ In q ps.
Proof.
  intros parse hash ast g s l Hf Hg Hs Hl Hno p q d x Hb input ps Hps. destruct (C36_file_grammars _ _ Hf Hg) as [Hp Hfr].
  destruct (text_tokens _ _ _ _ _ Hf Hg Hl Hno) as [Ht H]. destruct (H _ _ Hps) as (tokens & w & Hend & E).
  exact (C74_common_refuted _ _ _ Hg Hs Hp Hfr _ _ Ht _ _ _ _ Hb _ _ _ Hend E).
Qed.
Print Assumptions C74_text_refuted.

(** In the remaining case - a name after the first E, a token before the last - the rule can be
    used: S -> ( E ) | { E } | [ E X ]; E -> E X c E | E X | n; X -> t.  The text [ n t c n t ] is
    accepted with the rule E -> E X c E, because the shift of t after E X c E is missing (C28). *)
Definition w78 : list aprod :=
  [PS 83 [[T 40; V 69; T 41]; [T 123; V 69; T 125]; [T 91; V 69; V 88; T 93]];
   P 69 [[V 69; V 88; T 99; V 69]; [V 69; V 88]; [T 110]]; P 88 [[T 116]]]%N.
Theorem C78_unused_refuted :
  exists ast g t p m tokens w ps, tables_of ast g t /\ well_formed g /\ both_ends g p m /\ ended tokens w /\ parse_impl g t tokens = Ok ps /\ In p ps.
Proof.
  destruct (grammar_from_ast w78) as [g| |] eqn:Eg; [|vm_compute in Eg; discriminate Eg..].
  destruct (make_tables ehash g) as [t| |] eqn:Et; [|vm_compute in Eg; injection Eg as <-; vm_compute in Et; discriminate Et..].
  assert (Hwf : well_formed g) by wf_ok Eg.
  set (idx := fun c : N => match get_token_idx g (Grammar.SStr [c]) with Some k => k | _ => 0 end).
  exists w78, g, t, 4, [SNon [88]%N; Grammar.SStr [99]%N], (map idx [91; 110; 116; 99; 110; 116; 93]%N ++ [0]), (map idx [91; 110; 116; 99; 110; 116; 93]%N), [6; 7; 6; 4; 7; 3].
  split; [apply tables_of_any; auto|]. split; [exact Hwf|]. clear Hwf. subst idx. open Eg Et.
  split; [eexists; split; [reflexivity|reflexivity]|]. split; [split; [reflexivity|vm_compute; intuition discriminate]|]. split; [compute_ok|cbn; auto].
Qed.
Print Assumptions C78_unused_refuted.

(** The grammar of todo.md:11-24, for which the file reports a stack overflow: it is read, and
    building the tables never ends, however deep the stack may become. *)
Definition todo_text : str := lines [
  tx "export start Expr: ({ kind: ""Expr"", left: Expr, op: Op, right: Expr }) = [ ";
  tx "     <l: Expr> <op: Op> <right: Expr> => ({ kind: ""Expr"", left: l, right: right, op: op })";
  tx "]";
  tx "";
  tx "export Op: ({ kind: ""Op"", op: ""add"" | ""sub"" | ""div"" | ""mul"" }) = [ ";
  tx "     <plus: ""+""> => ({ kind: ""Op"", op: ""add"" }),";
  tx "     <sub: ""-""> => ({ kind: ""Op"", op: ""sub"" }),";
  tx "     <div: ""/""> => ({ kind: ""Op"", op: ""div"" }),";
  tx "     <mul: ""*""> => ({ kind: ""Op"", op: ""mul"" }),";
  tx "]";
  tx "";
  tx "export Num: ({ kind: ""Num"", value: string }) = [";
  tx "     <num: r""[1-9][0-9]*""> => ({ kind: ""Num"", value: num })";
  tx "]"].
Theorem C78_todo_refuted :
  exists ast g p, parse_grammar todo_text = Ok ast /\ grammar_from_ast ast = Ok g /\ both_ends g p [SNon (tx "Op")] /\
    (forall hash, make_tables hash g = Diverge) /\ forall fuel, first_with fuel g [SNon (tx "Expr")] = Diverge.
Proof.
  destruct (parse_grammar todo_text) as [ast| |] eqn:Ea; [|vm_compute in Ea; discriminate Ea..].
  destruct (grammar_from_ast ast) as [g| |] eqn:Eg; [|vm_compute in Ea; injection Ea as <-; vm_compute in Eg; discriminate Eg..].
  exists ast, g, 1. split; auto. split; auto. vm_compute in Ea. injection Ea as <-. vm_compute in Eg. injection Eg as <-.
  split; [eexists; split; [reflexivity|compute_ok]|]. split.
  - intros hash. unfold make_tables. match goal with |- context [items ?g] => assert (E : items g = Diverge) by compute_ok; rewrite E end. reflexivity.
  - apply first_div_all. compute_ok.
Qed.
Print Assumptions C78_todo_refuted.

(** With the rule E -> E + E tables may be built: S -> u A p | v A q | w B r | z B s | k; A -> ( Y;
    B -> { Z; Y -> E | D; Z -> E | D; E -> E + E | D c | x; D -> E + y.  So C78_unused_partial is not
    about grammars that get no tables. *)
Definition w78_tables : list aprod :=
  [PS 83 [[T 117; V 65; T 112]; [T 118; V 65; T 113]; [T 119; V 66; T 114]; [T 122; V 66; T 115]; [T 107]];
   P 65 [[T 40; V 89]]; P 66 [[T 123; V 90]]; P 89 [[V 69]; [V 68]]; P 90 [[V 69]; [V 68]];
   P 69 [[V 69; T 43; V 69]; [V 68; T 99]; [T 120]]; P 68 [[V 69; T 43; T 121]]]%N.
Example C78_unused_nonvacuous : exists g t p m, tables_of w78_tables g t /\ well_formed g /\ reachable g p /\ both_ends g p m /\ token_first m /\
  exists tokens w ps, ended tokens w /\ parse_impl g t tokens = Ok ps.
Proof.
  destruct (grammar_from_ast w78_tables) as [g| |] eqn:Eg; [|vm_compute in Eg; discriminate Eg..].
  destruct (make_tables ehash g) as [t| |] eqn:Et; [|vm_compute in Eg; injection Eg as <-; vm_compute in Et; discriminate Et..].
  assert (Hwf : well_formed g) by wf_ok Eg. exists g, t, 12, [Grammar.SStr [43]%N].
  split; [apply tables_of_any; auto|]. split; [exact Hwf|]. clear Hwf. open Eg Et. split; [|split; [|split]].
  - apply (reach_next _ 8 _ 12 _) with (4 := eq_refl) (2 := eq_refl); [|cbn; auto]. apply (reach_next _ 6 _ 8 _) with (4 := eq_refl) (2 := eq_refl); [|cbn; auto].
    apply (reach_next _ 1 _ 6 _) with (4 := eq_refl) (2 := eq_refl); [|cbn; auto]. apply (reach_next _ 0 _ 1 _) with (4 := eq_refl) (2 := eq_refl); [constructor|cbn; auto].
  - eexists. split; reflexivity.
  - eexists _, []. split; [reflexivity|]. intros n. discriminate.
  - eexists [_; 0], [_], [5]. split; [split; [reflexivity|]|]; cycle 1.
    + match goal with |- parse_impl ?g _ _ = _ => match eval vm_compute in (get_token_idx g (Grammar.SStr [107]%N)) with Some ?k => instantiate (1 := k) end end. compute_ok.
    + cbn. intuition discriminate.
Qed.
Example C78_no_tables_nonvacuous : exists g p m, grammar_from_ast [PS 69 [[V 69; V 79; V 69]; [T 120]]; P 79 [[T 43]]]%N = Ok g /\ eps_free g /\ reachable g p /\ both_ends g p m /\ name_last m.
Proof.
  eexists _, 1, [SNon [79]%N]. split; [compute_ok|]. split; [apply eps_free_b_ok; reflexivity|]. split; [apply (reach_next _ 0 _ 1 _) with (4 := eq_refl) (2 := eq_refl); [constructor|cbn; auto]|].
  split; [eexists; split; reflexivity|]. right. exists [], [79]%N. reflexivity.
Qed.

(** The way out is the grammar with one name for each strength: E -> E + T | T; T -> x (the same as
    [w_expr]) gets tables and x + x + x is read from the left. *)
Example C78_way_out : exists g t, tables_of w_expr g t /\ well_formed g /\ closed g t /\ (forall p m, ~ both_ends g p m) /\
  exists tokens w, ended tokens w /\ length w = 5 /\ parse_impl g t tokens = Ok [3; 2; 3; 1; 3; 1].
Proof.
  destruct (grammar_from_ast w_expr) as [g| |] eqn:Eg; [|vm_compute in Eg; discriminate Eg..].
  destruct (make_tables ehash g) as [t| |] eqn:Et; [|vm_compute in Eg; injection Eg as <-; vm_compute in Et; discriminate Et..].
  assert (Hwf : well_formed g) by wf_ok Eg. exists g, t. split; [apply tables_of_any; auto|]. split; [exact Hwf|]. clear Hwf. open Eg Et.
  split; [apply closed_b_ok; compute_ok|]. split.
  - intros p m (pr & Hp & Es). do 4 (destruct p as [|p]; [injection Hp as <-; cbn in Es; try discriminate Es; repeat (destruct m as [|? m]; [discriminate Es|]; cbn in Es; try discriminate Es; injection Es as <- Es; try discriminate Es); destruct m; discriminate Es|]). destruct p; discriminate Hp.
  - exists [2; 1; 2; 1; 2; 0], [2; 1; 2; 1; 2]. split; [split; [reflexivity|cbn; intuition discriminate]|]. split; [reflexivity|]. compute_ok.
Qed.
