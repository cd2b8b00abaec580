(** Properties C51 to C54: reading grammar files. *)
From Coq Require Import Ascii String.
From Verif Require Import Base Regex Nfa Dfa Lex LexSpec Grammar GrammarSpec First Item Table LexGrammar Parse ParseSpec Auto Lalr EndSpec Support Text TsText Lisp Utf8Spec PropsEnd
  GrammarFile GrammarFileSpec GrammarFileProofs.
Local Open Scope list_scope.

(** ** C51 *)

(** A grammar file is read exactly as its grammar says; there is one reading at most, and a file
    without one makes [parse_grammar] panic on the error and nowhere else. *)
Theorem C51_reading :
  forall text, (forall ast, parse_grammar text = Ok ast <-> file_says text ast) /\
  (parse_grammar text = Panic PUnwrapNone <-> forall ast, ~ file_says text ast).
Proof.
  intros text.
  assert (H1 : forall ast, parse_grammar text = Ok ast <-> file_says text ast).
  { intros ast. unfold parse_grammar, file_says. split.
    - intros E. apply bind_ok in E as (ts & E1 & E). apply file_tokens_iff in E1. exists ts. split; auto.
      eapply parse_program_sound; eauto. eapply Tokens_proper; eauto.
    - intros (ts & Ht & Hp). apply file_tokens_iff in Ht. rewrite Ht. cbn [bind]. apply parse_program_complete; auto. }
  split; auto. split.
  - intros E ast Hs. apply H1 in Hs. congruence.
  - intros Hno. unfold parse_grammar in *. destruct (file_tokens_total (length text) text (le_n _)) as [[ts E]|[E _]]; rewrite E in *; [|reflexivity].
    cbn [bind] in *. apply file_tokens_iff in E. destruct (parse_program_total (S (length ts)) ts (Tokens_proper _ _ E) (Nat.lt_succ_diag_r _)) as [[ps E']|E']; auto.
    exfalso. apply (Hno ps). apply H1. auto.
Qed.
Print Assumptions C51_reading.
Theorem C51_unambiguous : forall text ast ast', file_says text ast -> file_says text ast' -> ast = ast'.
Proof. intros text a a' H H'. apply (proj1 (C51_reading text)) in H, H'. rewrite H in H'. injection H' as <-. reflexivity. Qed.
Print Assumptions C51_unambiguous.

(** The committed grammar file is read as the AST used elsewhere in this development. *)
Definition lines (l : list str) : str := concat (map (fun s => s ++ [10%N]) l).
Definition lisp_text : str := lines [
  tx "export start SExpr: ({ kind: ""SExpr"", exprs: Exprs }) = [";
  tx "    ""("" <exprs: Exprs> "")"" => ({ kind: ""SExpr"", exprs: exprs })";
  tx "]";
  tx "";
  tx "export Exprs: (Expr[]) = [";
  tx "    <eee: Expr> <es: Exprs> => ([eee, ...es]),";
  tx "    <eee: Expr> => ([eee])";
  tx "]";
  tx "";
  tx "export Expr: ({ kind: ""symbol"", value: ""add"" } | { kind: ""int"", value: string } | { kind: ""sexpr"", sexpr: SExpr }) = [ ";
  tx "    <sexpr: SExpr> => ({ kind: ""sexpr"", sexpr: sexpr }),";
  tx "    <str: ""add""> => ({ kind: ""symbol"", value: str }),";
  tx "    <int: r""[1-9]+[0-9]*""> => ({ kind: ""int"", value: int })";
  tx "]"].
Example C51_nonvacuous : parse_grammar lisp_text = Ok lisp_ast /\ parse_grammar (removelast lisp_text) = Ok lisp_ast /\
  parse_grammar (tl lisp_text) = Panic PUnwrapNone /\ file_says lisp_text lisp_ast.
Proof.
  assert (E : parse_grammar lisp_text = Ok lisp_ast) by (vm_compute; reflexivity).
  split; [exact E|]. split; [vm_compute; reflexivity|]. split; [vm_compute; reflexivity|]. apply (proj1 (C51_reading _)). exact E.
Qed.

(** ** C52 *)

(** The tokens of an AST. *)
Definition quoted (a b : N) (s : str) : str := a :: s ++ [b].
Definition sym_toks (x : isym) : list gtok :=
  match x with IStr s => [GStr (quoted 34 34 s)] | IReg s => [GR; GStr (quoted 34 34 s)] | INon n => [GId n] | _ => [] end.
Definition named_toks (x : isym) : list gtok :=
  match x with INamed (Some n) ty => GLess :: GId n :: GColon :: sym_toks ty ++ [GMore] | _ => sym_toks x end.
Definition body_toks (b : abody) : list gtok := flat_map named_toks (ab_syms b) ++ [GArrow; GCode (quoted 40 41 (ab_fn b))].
Definition rule_toks (p : aprod) : list gtok :=
  (if ap_start p then [GExport; GStart] else [GExport]) ++ [GId (ap_name p); GColon; GCode (quoted 40 41 (ap_ts p)); GEq; GOpen] ++
  flat_map (fun b => body_toks b ++ [GComma]) (ap_bodies p) ++ [GClose].

Lemma sym_toks_ok x : sym_ok x -> Symbol_ (sym_toks x) x /\ Forall proper (sym_toks x).
Proof.
  destruct x as [s|n ty|n|s| |]; intros H; cbn [sym_toks]; try (exfalso; exact H).
  - split; [constructor|]. constructor; [|constructor]. exists s. auto.
  - split; [constructor|]. constructor; [exact H|constructor].
  - split; [constructor|]. constructor; [exact I|]. constructor; [|constructor]. exists s. auto.
Qed.
Lemma named_toks_ok x : named_ok x -> Named_ (named_toks x) x /\ Forall proper (named_toks x).
Proof.
  assert (G : sym_ok x -> Named_ (sym_toks x) x /\ Forall proper (sym_toks x)).
  { intros H. destruct (sym_toks_ok _ H). split; auto. apply na_plain. auto. }
  destruct x as [s|[n|] ty|s|s| |]; intros H; try exact (G H). clear G. destruct H as [Hn H]. destruct (sym_toks_ok _ H) as [H1 H2]. cbn [named_toks]. split; [constructor; auto|].
  constructor; [exact I|]. constructor; [exact Hn|]. constructor; [exact I|]. apply Forall_app. split; auto. repeat constructor.
Qed.
Lemma names_toks_ok xs : xs <> [] -> Forall named_ok xs -> Names_ (flat_map named_toks xs) xs /\ Forall proper (flat_map named_toks xs).
Proof.
  intros Hne HF. induction HF as [|x xs Hx HF IH]; [congruence|]. destruct (named_toks_ok x Hx) as [H1 H2]. cbn [flat_map]. destruct xs as [|y ys].
  - cbn [flat_map]. rewrite app_nil_r. split; auto. constructor. auto.
  - destruct (IH ltac:(discriminate)) as [H3 H4]. split; [constructor; auto|apply Forall_app; auto].
Qed.
Lemma rule_toks_ok p : name_ok (ap_name p) -> ~ In 10%N (ap_ts p) ->
  (forall b, In b (ap_bodies p) -> ab_syms b <> [] /\ Forall named_ok (ab_syms b) /\ ~ In 10%N (ab_fn b)) ->
  Rule_ (rule_toks p) p /\ Forall proper (rule_toks p).
Proof.
  intros Hn Ht Hb. destruct p as [n bs st c]. cbn [ap_name ap_ts ap_bodies] in *.
  assert (HB : Bodies_ (flat_map (fun b => body_toks b ++ [GComma]) bs) bs /\ Forall proper (flat_map (fun b => body_toks b ++ [GComma]) bs)).
  { induction bs as [|b bs IH]; [split; constructor|]. destruct IH as [I1 I2]; [intros b' Hb'; apply Hb; right; auto|].
    destruct (Hb b (or_introl eq_refl)) as (B1 & B2 & B3). destruct (names_toks_ok _ B1 B2) as [N1 N2]. cbn [flat_map]. split.
    - rewrite <- app_assoc. cbn [app]. constructor; auto. destruct b as [xs fn]. constructor. auto.
    - apply Forall_app. split; auto. apply Forall_app. split; [|repeat constructor]. apply Forall_app. split; auto.
      constructor; [exact I|]. constructor; [|constructor]. exists (ab_fn b). auto. }
  destruct HB as [HB1 HB2]. unfold rule_toks. cbn [ap_start ap_name ap_ts ap_bodies]. split.
  - destruct st; (apply ru; auto; cbn; tauto).
  - apply Forall_app. split; [destruct st; repeat constructor|]. cbn [app].
    constructor; [exact Hn|]. constructor; [exact I|]. constructor; [exists c; auto|]. do 2 (constructor; [exact I|]).
    apply Forall_app. split; auto. repeat constructor.
Qed.
Lemma program_toks_ok ast : writable ast -> Program_ (flat_map rule_toks ast) ast /\ Forall proper (flat_map rule_toks ast).
Proof.
  intros [Hne H]. induction ast as [|p ps IH]; [congruence|]. destruct (H p (or_introl eq_refl)) as (H1 & H2 & H3).
  destruct (rule_toks_ok p H1 H2 H3) as [R1 R2]. cbn [flat_map]. destruct ps as [|q qs].
  - cbn [flat_map]. rewrite app_nil_r. split; auto. constructor. auto.
  - destruct IH as [I1 I2]; [discriminate|intros p' Hp'; apply H; right; auto|]. split; [constructor; auto|apply Forall_app; auto].
Qed.

(** A text with every token on a line of its own. *)
Lemma lines_lay ts : Forall proper ts -> Lay (lines (map text_of ts)) ts.
Proof.
  intros H. induction H as [|t ts Ht _ IH]; [constructor|]. unfold lines in *. cbn [map concat]. rewrite <- app_assoc. constructor; auto.
  - destruct t; cbn [apart]; auto.
    1-3, 5: (intros c v E; injection E as <- _; unfold ident_rest, ident_start; lia).
    + intros v. discriminate.
    + intros v w E. destruct v as [|c v]; [discriminate|]. injection E as <- _. left. auto.
  - apply lay_space; auto. unfold space. lia.
Qed.

Lemma Named_ok u x : Named_ u x -> Forall proper u -> named_ok x.
Proof.
  assert (S : forall u x, Symbol_ u x -> Forall proper u -> sym_ok x).
  { intros v y [c|c|n] HF.
    - apply Forall_inv in HF. destruct HF as (c' & E & Hq). injection E as E. apply app_inj_tail in E as [-> _]. exact Hq.
    - apply Forall_inv_tail, Forall_inv in HF. destruct HF as (c' & E & Hq). injection E as E. apply app_inj_tail in E as [-> _]. exact Hq.
    - apply Forall_inv in HF. exact HF. }
  intros [n ts y H|ts y H] HF.
  - split; [apply Forall_inv_tail, Forall_inv in HF; exact HF|]. do 3 apply Forall_inv_tail in HF. apply Forall_app in HF as [HF _]. eauto.
  - specialize (S _ _ H HF). destruct H; exact S.
Qed.
Lemma code_ok c : proper (GCode (40%N :: c ++ [41%N])) -> ~ In 10%N c.
Proof. intros (c' & E & H). injection E as E. apply app_inj_tail in E as [-> _]. exact H. Qed.
Lemma Rule_ok u p : Rule_ u p -> Forall proper u -> name_ok (ap_name p) /\ ~ In 10%N (ap_ts p) /\
  forall b, In b (ap_bodies p) -> ab_syms b <> [] /\ Forall named_ok (ab_syms b) /\ ~ In 10%N (ab_fn b).
Proof.
  intros [fr s n c ts bs _ HB] HF. apply Forall_app in HF as [_ HF]. cbn [app] in HF. cbn [ap_name ap_ts ap_bodies].
  split; [apply Forall_inv in HF; exact HF|]. split; [do 2 apply Forall_inv_tail in HF; apply Forall_inv in HF; apply code_ok; auto|].
  do 5 apply Forall_inv_tail in HF. apply Forall_app in HF as [HF _].
  assert (B : forall u b, Body_ u b -> Forall proper u -> ab_syms b <> [] /\ Forall named_ok (ab_syms b) /\ ~ In 10%N (ab_fn b)).
  { intros v b [ts' xs c' HN] Hv. apply Forall_app in Hv as [Hv1 Hv2]. cbn [ab_syms ab_fn]. apply Forall_inv_tail, Forall_inv in Hv2. apply code_ok in Hv2.
    assert (xs <> [] /\ Forall named_ok xs); [|tauto]. clear Hv2. induction HN as [w x Hx|w x w' xs' Hx HN IH].
    - split; [discriminate|]. repeat constructor. eapply Named_ok; eauto.
    - apply Forall_app in Hv1 as [Hw Hw']. split; [discriminate|]. constructor; [eapply Named_ok; eauto|apply IH; auto]. }
  intros b Hin. induction HB as [|ts' b' Hb|ts' b' ts'' bs' Hb _ IH]; [destruct Hin|destruct Hin as [->|[]]; eauto|].
  apply Forall_app in HF as [HF1 HF2]. apply Forall_inv_tail in HF2. destruct Hin as [->|Hin]; eauto.
Qed.

(** The ASTs that grammar files can express are exactly the writable ones. *)
Theorem C52_expressible : forall ast, (exists text, parse_grammar text = Ok ast) <-> writable ast.
Proof.
  intros ast. split.
  - intros [text E]. apply (proj1 (C51_reading text)) in E as (ts & Ht & Hp). apply Tokens_proper in Ht. induction Hp as [ts p H|ts p ts' ps H Hp IH].
    + split; [discriminate|]. intros q [<-|[]]. eapply Rule_ok; eauto.
    + apply Forall_app in Ht as [Ht Ht']. split; [discriminate|]. intros q [<-|Hq]; [eapply Rule_ok; eauto|]. apply IH; auto.
  - intros H. destruct (program_toks_ok ast H) as [Hp HF]. exists (lines (map text_of (flat_map rule_toks ast))). apply (proj1 (C51_reading _)).
    eexists. split; [apply Lay_Tokens, lines_lay; eauto|]. auto.
Qed.
Print Assumptions C52_expressible.

(** In particular they have the shape that the theorems about grammar files assume. *)
Theorem C52_file_ast : forall text ast, parse_grammar text = Ok ast -> file_ast ast.
Proof.
  intros text ast E. assert (H : writable ast) by (apply C52_expressible; eauto). destruct H as [Hne H]. split; auto. intros p Hp.
  destruct (H p Hp) as ((Hn & _) & _ & Hb). split; auto. intros b Hbin. destruct (Hb b Hbin) as (H1 & H2 & _). split; auto.
  eapply Forall_impl; [|exact H2].
  assert (S : forall x, sym_ok x -> file_symbol x) by (intros [s|n ty|s|s| |] Hx; cbn in *; auto; apply Hx).
  intros [s|[n|] ty|s|s| |] Hx; cbn in *; auto; try tauto; try apply Hx. destruct Hx as [[Hx _] Hy]. auto.
Qed.
Print Assumptions C52_file_ast.
Example C52_nonvacuous : writable lisp_ast /\ ~ writable [AProd (tx "r") [] true (tx "x")].
Proof.
  split; [apply C52_expressible; exists lisp_text; vm_compute; reflexivity|]. intros [_ H]. destruct (H _ (or_introl eq_refl)) as ((_ & Hk) & _).
  apply Hk. unfold keyword. cbn. tauto.
Qed.

(** ** C53 *)

(** Replacing a line break by a space can silently lose an alternative, or make a file
    unreadable. *)
Theorem C53_layout_refuted :
  (exists before after ast ast', parse_grammar (before ++ [10%N] ++ after) = Ok ast /\ parse_grammar (before ++ [32%N] ++ after) = Ok ast' /\
     map (fun p => length (ap_bodies p)) ast = [2] /\ map (fun p => length (ap_bodies p)) ast' = [1]) /\
  (exists before after ast, parse_grammar (before ++ [10%N] ++ after) = Ok ast /\ parse_grammar (before ++ [32%N] ++ after) = Panic PUnwrapNone).
Proof.
  split.
  - exists (lines [tx "export start S: (string) ="; tx "["] ++ tx """a"" => (1),"), (lines [tx """b"" => (2)"; tx "]"]).
    match goal with |- exists a b, ?X = _ /\ ?Y = _ /\ _ => let v := eval vm_compute in X in let w := eval vm_compute in Y in
      match v with Ok ?x => match w with Ok ?y => exists x, y end end end.
    split; [vm_compute; reflexivity|]. split; [vm_compute; reflexivity|]. split; reflexivity.
  - exists (tx "export start S: (string) = ["), (lines [tx """a"" => (1)"; tx "]"]).
    match goal with |- exists a, ?X = _ /\ _ => let v := eval vm_compute in X in match v with Ok ?x => exists x end end.
    split; vm_compute; reflexivity.
Qed.
Print Assumptions C53_layout_refuted.

(** How tokens can be laid out: exactly so that words, [=] and code end where they should.  The
    meaning of a file is then that of its tokens. *)
Theorem C53_layout_partial :
  forall text, (forall ast, parse_grammar text = Ok ast <-> exists ts, Lay text ts /\ Program_ ts ast) /\
  (forall ts, Lay text ts -> forall ast, parse_grammar text = Ok ast <-> Program_ ts ast).
Proof.
  intros text. split.
  - intros ast. rewrite (proj1 (C51_reading text)). split; intros (ts & H & Hp); exists ts; split; auto using Tokens_Lay, Lay_Tokens.
  - intros ts H ast. rewrite (proj1 (C51_reading text)). apply Lay_Tokens in H. split; [|exists ts; auto].
    intros (ts' & H' & Hp). rewrite (Tokens_unique _ _ H _ H'). auto.
Qed.
Print Assumptions C53_layout_partial.
Theorem C53_same_tokens_partial :
  forall text text' ts, Lay text ts -> Lay text' ts -> parse_grammar text = parse_grammar text'.
Proof.
  intros t t' ts H H'. apply Lay_Tokens, file_tokens_iff in H, H'. unfold parse_grammar. rewrite H, H'. reflexivity.
Qed.
Print Assumptions C53_same_tokens_partial.
Example C53_nonvacuous : exists ts, Lay lisp_text ts /\ length ts = 75.
Proof.
  destruct (file_tokens (length lisp_text) lisp_text) as [ts| |] eqn:E; [|vm_compute in E; discriminate E..]. exists ts.
  split; [apply Tokens_Lay, file_tokens_iff; exact E|]. vm_compute in E. injection E as <-. reflexivity.
Qed.

(** ** C54 *)

Definition mentions (ast : list aprod) (x : isym) : Prop :=
  exists p b y, In p ast /\ In b (ap_bodies p) /\ In y (ab_syms b) /\ (y = x \/ exists n, y = INamed n x).
(** The regex [\d] cannot be written, nor the literal of one backslash, and no rule can be called
    [r]. *)
Theorem C54_any_text_refuted :
  forall text ast, parse_grammar text = Ok ast ->
  ~ mentions ast (IReg (tx "\d")) /\ ~ mentions ast (IStr (tx "\")) /\ forall p, In p ast -> ap_name p <> tx "r".
Proof.
  intros text ast E. assert (H : writable ast) by (apply C52_expressible; eauto). destruct H as [_ H].
  assert (M : forall x, mentions ast x -> match x with IReg s | IStr s => quotable s | _ => True end).
  { intros x (p & b & y & Hp & Hb & Hy & Hx). destruct (H p Hp) as (_ & _ & Hbs). destruct (Hbs b Hb) as (_ & HF & _). rewrite Forall_forall in HF. specialize (HF y Hy).
    destruct Hx as [->|(n & ->)].
    - destruct x; auto.
    - cbn in HF. destruct n; [|destruct HF]. destruct HF as [_ HF]. destruct x; auto. }
  split; [|split].
  - intros Hm. apply M in Hm. vm_compute in Hm. inversion Hm; congruence.
  - intros Hm. apply M in Hm. vm_compute in Hm. inversion Hm; congruence.
  - intros p Hp Hn. destruct (H p Hp) as ((_ & Hk) & _). apply Hk. rewrite Hn. unfold keyword. cbn. tauto.
Qed.
Print Assumptions C54_any_text_refuted.

(** Which literals, regexes and names can be written. *)
Theorem C54_any_text_partial :
  forall s, (quotable s <-> exists text ast, parse_grammar text = Ok ast /\ mentions ast (IStr s)) /\
  (quotable s <-> exists text ast, parse_grammar text = Ok ast /\ mentions ast (IReg s)) /\
  (name_ok s <-> exists text ast p, parse_grammar text = Ok ast /\ In p ast /\ ap_name p = s).
Proof.
  assert (M : forall text ast x, parse_grammar text = Ok ast -> mentions ast x -> match x with IReg s | IStr s => quotable s | _ => True end).
  { intros text ast x E (p & b & y & Hp & Hb & Hy & Hx). assert (H : writable ast) by (apply C52_expressible; eauto). destruct H as [_ H].
    destruct (H p Hp) as (_ & _ & Hbs). destruct (Hbs b Hb) as (_ & HF & _). rewrite Forall_forall in HF. specialize (HF y Hy).
    destruct Hx as [->|(n & ->)]; [destruct x; auto|]. cbn in HF. destruct n; [|destruct HF]. destruct HF as [_ HF]. destruct x; auto. }
  assert (W : forall n x, name_ok n -> sym_ok x -> exists text, parse_grammar text = Ok [AProd n [ABody [x] []] true []]).
  { intros n x Hn Hx. apply C52_expressible. split; [discriminate|]. intros p [<-|[]]. split; auto. split; [intros []|]. intros b [<-|[]]. split; [discriminate|].
    split; [|intros []]. repeat constructor. destruct x; auto; destruct Hx. }
  assert (N1 : name_ok (tx "S")).
  { split; [split; [apply word_start_ok; reflexivity|constructor]|]. unfold keyword. cbn. intros [H|[H|[H|[]]]]; discriminate. }
  intros s. split; [|split]; split.
  - intros H. destruct (W (tx "S") (IStr s) N1 H) as [text E]. exists text, [AProd (tx "S") [ABody [IStr s] []] true []]. split; auto.
    do 3 eexists. split; [left; reflexivity|]. split; [left; reflexivity|]. split; [left; reflexivity|]. left. reflexivity.
  - intros (text & ast & E & Hm). apply (M _ _ _ E Hm).
  - intros H. destruct (W (tx "S") (IReg s) N1 H) as [text E]. exists text, [AProd (tx "S") [ABody [IReg s] []] true []]. split; auto.
    do 3 eexists. split; [left; reflexivity|]. split; [left; reflexivity|]. split; [left; reflexivity|]. left. reflexivity.
  - intros (text & ast & E & Hm). apply (M _ _ _ E Hm).
  - intros H. destruct (W s (INon (tx "S")) H N1) as [text E]. do 3 eexists. split; [exact E|]. split; [left; reflexivity|]. reflexivity.
  - intros (text & ast & p & E & Hp & <-). assert (H : writable ast) by (apply C52_expressible; eauto). apply H. auto.
Qed.
Print Assumptions C54_any_text_partial.
Example C54_nonvacuous : quotable (tx "a\\b") /\ ~ quotable (tx "a\b") /\ name_ok (tx "r1") /\ ~ name_ok (tx "1r").
Proof.
  split; [|split; [|split]].
  - vm_compute. repeat (constructor; try discriminate).
  - intros H. pose proof (str_end_quotable _ [] H) as E. vm_compute in E. discriminate E.
  - split; [split; [apply word_start_ok; reflexivity|apply word_b_rest; reflexivity]|]. unfold keyword. cbn. intros [H|[H|[H|[]]]]; discriminate.
  - intros [[H _] _]. apply word_start_ok in H. discriminate.
Qed.

(** ** From the text of a grammar to the decision on an input: C36 with the grammar file read. *)
Theorem C36_from_text_partial :
  forall parse hash text ast g st l, parse_grammar text = Ok ast -> grammar_from_ast ast = Ok g -> find ap_start ast = Some st ->
  lalr_new parse hash g = Ok l -> no_clash g ->
  forall input, exists toks rest, reading parse g input toks rest /\ (ascii input -> sliced input (toks_texts toks)) /\
    (~ sliced input (toks_texts toks) -> lalr_parse l input = Panic PSlice) /\
    ((exists ps, lalr_parse l input = Ok ps) -> derives g [SNon (ap_name st)] (toks_syms toks)) /\
    (closed g (l_tables l) -> sliced input (toks_texts toks) ->
       ((exists ps, lalr_parse l input = Ok ps) <-> derives g [SNon (ap_name st)] (toks_syms toks)) /\
       (lalr_parse l input = Panic PInvalidToken <-> ~ derives g [SNon (ap_name st)] (toks_syms toks))).
Proof. intros parse hash text ast g st l E. apply C36_decides_partial. apply (C52_file_ast text). exact E. Qed.
Print Assumptions C36_from_text_partial.
