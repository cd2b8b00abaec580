(** Property C72: comments in grammar files. *)
From Coq Require Import Ascii String.
From Verif Require Import Base Text Regex Nfa Dfa Lex Grammar First Item Table LexGrammar Parse Lalr GrammarFile GrammarFileSpec GrammarFileProofs PropsGrammarFile Witness CommentSpec.
Local Open Scope list_scope.

Lemma app_split {A} (a b c d : list A) : a ++ b = c ++ d -> (exists l, c = a ++ l /\ b = l ++ d) \/ exists l, l <> [] /\ a = c ++ l /\ d = l ++ b.
Proof.
  revert c. induction a as [|x a IH]; intros c E; cbn [app] in E.
  - left. exists c. auto.
  - destruct c as [|y c]; cbn [app] in E.
    + right. exists (x :: a). split; [discriminate|]. split; auto.
    + injection E as -> E. destruct (IH c E) as [(l & -> & ->)|(l & Hl & -> & ->)]; [left|right]; exists l; auto.
Qed.
Lemma line_tail (x : N) b : line_start (x :: b) -> line_start b.
Proof. intros [H|([|y l] & H)]; [discriminate|injection H as _ ->; left; reflexivity|]. injection H as _ ->. right. eauto. Qed.
Lemma line_app u l : line_start (u ++ l) -> line_start l.
Proof. induction u as [|x u IH]; auto. intros H. apply IH, (line_tail x), H. Qed.
Lemma line_in b : line_start b -> b = [] \/ In 10%N b.
Proof. intros [->|(l & ->)]; auto. right. apply in_or_app. right. left. reflexivity. Qed.

Lemma ident_10 c : ident_rest c -> c <> 10%N.
Proof. intros H ->. apply word_rest_ok in H. discriminate. Qed.
Lemma token_10 t : proper t -> In 10%N (text_of t) -> exists c, t = GStr (34%N :: c ++ [34%N]) /\ quotable c.
Proof.
  intros Hp Hi. destruct t as [| | | | | | | | | | |s|s|s]; cbn [proper text_of] in *;
    try (exfalso; vm_compute in Hi; repeat (destruct Hi as [Hi|Hi]; [discriminate|]); exact Hi).
  - destruct Hp as (c & -> & Hq). eauto.
  - exfalso. destruct Hp as [Hp _]. apply ident_rests in Hp. rewrite Forall_forall in Hp. exact (ident_10 _ (Hp _ Hi) eq_refl).
  - exfalso. destruct Hp as (c & -> & Hc). destruct Hi as [Hi|Hi]; [discriminate|]. apply in_app_or in Hi as [Hi|[Hi|[]]]; [auto|discriminate].
Qed.
Lemma token_last t b : proper t -> text_of t <> b ++ [10%N].
Proof.
  intros Hp E. destruct (token_10 t Hp) as (c & -> & _); [rewrite E; apply in_or_app; right; left; reflexivity|].
  cbn [text_of] in E. change (34%N :: c ++ [34%N]) with ((34%N :: c) ++ [34%N]) in E. apply app_inj_tail in E as [_ E]. discriminate.
Qed.
Lemma token_slash t u : proper t -> text_of t <> 47%N :: u.
Proof.
  intros Hp E. destruct t as [| | | | | | | | | | |s|s|s]; cbn [proper text_of] in *; try discriminate E.
  - destruct Hp as (c & -> & _). discriminate.
  - destruct Hp as [Hp _]. rewrite E in Hp. destruct Hp as [Hp _]. apply word_start_ok in Hp. discriminate.
  - destruct Hp as (c & -> & _). discriminate.
Qed.

Lemma quotable_break q : quotable q -> forall b a, q = b ++ 10%N :: a -> quotable b /\ quotable a.
Proof.
  induction 1 as [|s H IH|s H IH|c s H1 H2 H IH]; intros b a E.
  - destruct b; discriminate.
  - destruct b as [|x [|y b]]; cbn [app] in E; try discriminate. injection E as <- <- E. destruct (IH b a E). split; auto. constructor; auto.
  - destruct b as [|x [|y b]]; cbn [app] in E; try discriminate. injection E as <- <- E. destruct (IH b a E). split; auto. constructor; auto.
  - destruct b as [|x b]; cbn [app] in E; injection E as -> E.
    + subst. split; [constructor|auto].
    + destruct (IH b a E). split; auto. constructor; auto.
Qed.
Lemma quotable_app a b : quotable a -> quotable b -> quotable (a ++ b).
Proof. induction 1; intros Hb; cbn [app]; auto; constructor; auto. Qed.
Lemma quotable_plain c : ~ In 34%N c -> ~ In 92%N c -> quotable c.
Proof. induction c as [|x c IH]; intros H H'; constructor; [intros ->; apply H'; left; auto|intros ->; apply H; left; auto|]. apply IH; intros Hx; [apply H|apply H']; right; auto. Qed.

Lemma apart_prefix t l k z : apart t (l ++ z) -> l = k -> apart t k.
Proof.
  intros Ha <-. destruct t; cbn [apart] in *; auto.
  - intros c v ->. eapply Ha. reflexivity.
  - intros c v ->. eapply Ha. reflexivity.
  - intros c v ->. eapply Ha. reflexivity.
  - intros v ->. eapply Ha. reflexivity.
  - intros c v ->. eapply Ha. reflexivity.
  - intros v w ->. eapply Ha. rewrite <- app_assoc. reflexivity.
Qed.
Lemma apart_line t l x : apart t (l ++ [10%N]) -> apart t (l ++ 10%N :: x).
Proof.
  intros Ha. destruct t; cbn [apart] in *; auto.
  - intros c v E. destruct l; cbn [app] in E; injection E as <- _; eapply Ha; reflexivity.
  - intros c v E. destruct l; cbn [app] in E; injection E as <- _; eapply Ha; reflexivity.
  - intros c v E. destruct l; cbn [app] in E; injection E as <- _; eapply Ha; reflexivity.
  - intros v E. destruct l; cbn [app] in E; injection E as E _; [discriminate|]. subst. eapply Ha. reflexivity.
  - intros c v E. destruct l; cbn [app] in E; injection E as <- _; eapply Ha; reflexivity.
  - intros v w E. symmetry in E. destruct (app_split _ _ _ _ E) as [(k & -> & Ek)|(k & Hk & -> & Ek)].
    + destruct k as [|y k]; [discriminate|]. cbn [app] in Ek. injection Ek as <- Ek. eapply Ha. rewrite <- app_assoc. reflexivity.
    + destruct k as [|y k]; [congruence|]. cbn [app] in Ek. injection Ek as <- _. apply in_or_app. right. left. reflexivity.
Qed.

(** A beginning of a line is between tokens or inside quotes, where more can be written. *)
Lemma lay_line s ts : Lay s ts -> forall before after, s = before ++ after -> line_start before ->
  (exists ts1, Lay before ts1) \/
  in_quotes before after /\ exists b0, before = b0 ++ [10%N] /\ exists ts1 b2 a1 ts2, ts = ts1 ++ GStr (34%N :: (b2 ++ a1) ++ [34%N]) :: ts2 /\
    forall m, quotable m -> Lay (before ++ m ++ after) (ts1 ++ GStr (34%N :: (b2 ++ m ++ a1) ++ [34%N]) :: ts2).
Proof.
  induction 1 as [|c v ts Hc H IH|t v ts Hp Ha H IH]; intros before after E Hl.
  - left. destruct before; [|discriminate]. exists []. constructor.
  - destruct before as [|x b]; [left; exists []; constructor|]. cbn [app] in E. injection E as <- E.
    destruct (IH b after E (line_tail _ _ Hl)) as [(ts1 & H1)|((b1 & ts1 & b2 & a1 & a2 & Eb & Ea & H1 & Hq) & b0 & E0 & t1 & b2' & a1' & t2 & Et & Hm)].
    + left. exists ts1. constructor; auto.
    + right. split; [|exists (c :: b0); split; [rewrite E0; reflexivity|]].
      * exists (c :: b1), ts1, b2, a1, a2. split; [rewrite Eb; reflexivity|]. split; auto. split; [constructor|]; auto.
      * exists t1, b2', a1', t2. split; auto. intros m Hqm. cbn [app]. constructor; auto.
  - destruct (app_split _ _ _ _ E) as [(l & -> & ->)|(l & Hne & Et & ->)].
    + destruct (IH l after eq_refl (line_app _ _ Hl)) as [(ts1 & H1)|((b1 & ts1 & b2 & a1 & a2 & Eb & Ea & H1 & Hq) & b0 & E0 & t1 & b2' & a1' & t2 & Et & Hm)].
      * left. exists (t :: ts1). constructor; auto. eapply apart_prefix; eauto.
      * right. assert (Hal : apart t l) by (eapply apart_prefix; eauto). split; [|exists (text_of t ++ b0); split; [rewrite E0, app_assoc; reflexivity|]].
        -- exists (text_of t ++ b1), (t :: ts1), b2, a1, a2. split; [rewrite Eb, <- app_assoc; reflexivity|]. split; auto. split; auto.
           constructor; auto. rewrite Eb in Hal. eapply apart_prefix; eauto.
        -- exists (t :: t1), b2', a1', t2. split; [rewrite Et; reflexivity|]. intros m Hqm. rewrite <- app_assoc. cbn [app]. constructor; auto.
           rewrite E0 in *. rewrite <- app_assoc. apply apart_line. exact Hal.
    + destruct (line_in _ Hl) as [->|Hi]; [left; exists []; constructor|]. right.
      destruct (token_10 t Hp) as (c & -> & Hq); [rewrite Et; apply in_or_app; auto|]. cbn [text_of] in Et.
      destruct Hl as [->|(b0 & E0)]; [destruct Hi|].
      destruct before as [|x b2]; [destruct Hi|]. cbn [app] in Et. injection Et as <- Et.
      destruct (exists_last Hne) as (a1 & y & ->). rewrite app_assoc in Et. apply app_inj_tail in Et as [-> <-].
      split; [|exists b0; split; auto].
      * exists [], [], b2, a1, v. split; auto. split; [rewrite <- app_assoc; reflexivity|]. split; [constructor|exact Hq].
      * exists [], b2, a1, ts. split; auto. intros m Hqm. cbn [app].
        replace (34%N :: b2 ++ m ++ (a1 ++ [34%N]) ++ v) with (text_of (GStr (34%N :: (b2 ++ m ++ a1) ++ [34%N])) ++ v) by (cbn [text_of app]; rewrite <- !app_assoc; reflexivity).
        apply lay_token; [|exact I|auto]. exists (b2 ++ m ++ a1). split; auto.
        destruct b0 as [|z b0]; [discriminate|]. cbn [app] in E0. injection E0 as <- ->. rewrite <- !app_assoc in Hq. cbn [app] in Hq.
        destruct (quotable_break _ Hq _ _ eq_refl) as [Q1 Q2]. rewrite <- app_assoc. apply quotable_app; auto. constructor; [discriminate|discriminate|]. apply quotable_app; auto.
Qed.

(** Nothing that begins with a slash can follow there. *)
Lemma lay_slash b ts : Lay b ts -> line_start b -> forall x ts', ~ Lay (b ++ 47%N :: x) ts'.
Proof.
  induction 1 as [|c v ts Hc H IH|t v ts Hp Ha H IH]; intros Hl x ts' H'.
  - cbn [app] in H'. inversion H' as [|c v ts Hc _ E|t v ts Hp _ _ E]; subst.
    + apply space_ok in Hc. discriminate.
    + destruct (token_head t Hp) as (c & u & Et & _). rewrite Et in E. cbn [app] in E. injection E as -> _. exact (token_slash t u Hp Et).
  - cbn [app] in H'. inversion H' as [|c' v' ts0 Hc' H1 E|t v' ts0 Hp _ _ E]; subst.
    + exact (IH (line_tail _ _ Hl) x _ H1).
    + destruct (token_head t Hp) as (c' & u & Et & Hn). rewrite Et in E. cbn [app] in E. injection E as -> _. contradiction.
  - assert (Hl' : exists l, v = l ++ [10%N]).
    { destruct Hl as [Hl|(l & Hl)].
      - destruct (token_head t Hp) as (c & u & Et & _). rewrite Et in Hl. discriminate.
      - destruct v as [|y v']; [rewrite app_nil_r in Hl; exfalso; exact (token_last t l Hp Hl)|].
        destruct (exists_last (l := y :: v')) as (l' & z & Ez); [discriminate|]. rewrite Ez, app_assoc in Hl. apply app_inj_tail in Hl as [_ ->]. eauto. }
    assert (Ha' : apart t (v ++ 47%N :: x)).
    { destruct Hl' as (l & ->). rewrite <- app_assoc. apply apart_line. exact Ha. }
    rewrite <- app_assoc in H'. inversion H' as [E|c' v' ts0 Hc' _ E|t' v' ts0 Hp' Hb H1 E].
    + destruct (token_head t Hp) as (c & u & Et & _). rewrite Et in E. discriminate.
    + destruct (token_head t Hp) as (c & u & Et & Hn). rewrite Et in E. cbn [app] in E. injection E as -> _. contradiction.
    + destruct (taken_unique _ _ _ _ _ _ (taken_token _ _ Hp' Hb) (taken_token _ _ Hp Ha') E) as (_ & -> & _).
      refine (IH _ x _ H1). right. exact Hl'.
Qed.

(** The strings of an AST, with their quotes, and of tokens. *)
Definition tok_size (t : gtok) : nat := match t with GStr s => length s | _ => 0 end.
Definition toks_size (ts : list gtok) : nat := list_sum (map tok_size ts).
Fixpoint sym_size (x : isym) : nat :=
  match x with IStr s | IReg s => length s + 2 | INamed _ y => sym_size y | _ => 0 end.
Definition body_size (b : abody) : nat := list_sum (map sym_size (ab_syms b)).
Definition rule_size (p : aprod) : nat := list_sum (map body_size (ap_bodies p)).

Lemma size_app a b : toks_size (a ++ b) = toks_size a + toks_size b.
Proof. unfold toks_size. rewrite map_app, list_sum_app. reflexivity. Qed.
Lemma size_cons a b : toks_size (a :: b) = tok_size a + toks_size b.
Proof. reflexivity. Qed.
Lemma symbol_size ts x : Symbol_ ts x -> toks_size ts = sym_size x.
Proof. intros []; unfold toks_size, list_sum; cbn [map fold_right tok_size sym_size length]; rewrite ?app_length; cbn [length]; lia. Qed.
Lemma named_size ts x : Named_ ts x -> toks_size ts = sym_size x.
Proof. intros [n ts' y H|ts' y H]; apply symbol_size in H; auto. rewrite !size_cons, size_app, H. cbn. lia. Qed.
Lemma names_size ts xs : Names_ ts xs -> toks_size ts = list_sum (map sym_size xs).
Proof.
  induction 1 as [ts x H|ts x ts' xs H _ IH]; apply named_size in H; [rewrite H; unfold list_sum; cbn [map fold_right]; lia|]. rewrite size_app, H, IH. reflexivity.
Qed.
Lemma bodies_size ts bs : Bodies_ ts bs -> toks_size ts = list_sum (map body_size bs).
Proof.
  assert (B : forall ts b, Body_ ts b -> toks_size ts = body_size b).
  { intros ts' b [u xs c H]. rewrite size_app, (names_size _ _ H). unfold body_size. cbn [ab_syms]. rewrite !size_cons. change (toks_size []) with 0. cbn [tok_size]. lia. }
  induction 1 as [|ts b H|ts b ts' bs H _ IH]; [reflexivity| |]; apply B in H.
  - rewrite H. unfold list_sum. cbn [map fold_right]. lia.
  - rewrite size_app, size_cons, H, IH. reflexivity.
Qed.
Lemma program_size ts ast : Program_ ts ast -> toks_size ts = list_sum (map rule_size ast).
Proof.
  assert (R : forall ts p, Rule_ ts p -> toks_size ts = rule_size p).
  { intros ts' p [f s n c u bs Hf H]. unfold rule_size. cbn [ap_bodies]. rewrite !size_app, (bodies_size _ _ H).
    destruct Hf as [E|[E|[E|[]]]]; injection E as <- <-; rewrite ?size_cons; change (toks_size []) with 0; cbn [tok_size]; lia. }
  induction 1 as [ts p H|ts p ts' ps H _ IH]; apply R in H; [rewrite H; unfold list_sum; cbn [map fold_right]; lia|]. rewrite size_app, H, IH. reflexivity.
Qed.


(** ** C72 *)

(** In no grammar file, before no line of it, can a line of comment be put: the file is then
    rejected, or the line is inside quotes and read as a part of the literal.  So the comment
    never leaves the meaning of the file as it was. *)
Theorem C72_comment_refuted :
  forall before after ast, parse_grammar (before ++ after) = Ok ast -> line_start before ->
  (forall c, parse_grammar (before ++ comment c ++ after) = Panic PUnwrapNone) \/ in_quotes before after.
Proof.
  intros before after ast E Hl. apply (proj1 (C53_layout_partial _)) in E as (ts & HL & HP).
  destruct (lay_line _ _ HL _ _ eq_refl Hl) as [(ts1 & H1)|[H _]]; auto. left. intros c.
  apply (proj2 (C51_reading _)). intros ast' Hs. apply (proj1 (C51_reading _)), (proj1 (C53_layout_partial _)) in Hs as (ts' & HL' & _).
  exact (lay_slash _ _ H1 Hl _ _ HL').
Qed.
Print Assumptions C72_comment_refuted.
Theorem C72_meaning_refuted :
  forall before after ast c, parse_grammar (before ++ after) = Ok ast -> line_start before -> ~ In 34%N c -> ~ In 92%N c ->
  parse_grammar (before ++ comment c ++ after) <> Ok ast.
Proof.
  intros before after ast c E Hl H34 H92 E'. apply (proj1 (C53_layout_partial _)) in E as (ts & HL & HP).
  destruct (lay_line _ _ HL _ _ eq_refl Hl) as [(ts1 & H1)|(_ & b0 & E0 & ts1 & b2 & a1 & ts2 & Et & Hm)].
  - apply (proj1 (C53_layout_partial _)) in E' as (ts' & HL' & _). exact (lay_slash _ _ H1 Hl _ _ HL').
  - assert (Hq : quotable (comment c)).
    { unfold comment. apply quotable_app; [apply quotable_plain; intros [H|[H|[]]]; discriminate|].
      apply quotable_app; [apply quotable_plain; auto|apply quotable_plain; intros [H|[]]; discriminate]. }
    apply (proj2 (C53_layout_partial _) _ (Hm _ Hq)) in E'. apply program_size in HP, E'. rewrite <- HP, Et, !size_app, !size_cons in E'.
    cbn [tok_size length] in E'. rewrite !app_length in E'. unfold comment in E'. rewrite !app_length in E'. cbn [length] in E'.
    assert (length (tx "//") = 2) by reflexivity. lia.
Qed.
Print Assumptions C72_meaning_refuted.

(** The example of README.md:22-45.  It cannot be read; without its first line it can, and the
    parser made of it accepts the text of README.md:62. *)
Definition readme_grammar : list str := [
  [];
  tx "export start SExpr: ({ kind: ""sexpr"", exprs: Expr[] }) = [";
  tx "    ""("" <exprs: Exprs> "")"" => ({ kind: ""sexpr"", exprs })";
  tx "]";
  [];
  tx "export Exprs: (Expr[]) = [";
  tx "    <e1: Expr> <e2: Exprs> => ([e1, ...e2]),";
  tx "    <e: Expr> => ([e])";
  tx "]";
  [];
  tx "export Expr: () = [";
  tx "    <int: Int> => ({ kind: ""expr"", value: int }),";
  tx "    <sym: Symbol> => ({ kind: ""expr"", value: sym }),";
  tx "]";
  [];
  tx "export Int: ({ kind: ""int"", int: number }) = [";
  tx "    <int: r""[1-9][0-9]*""> => ({ kind: ""int"", int: parseInt(int) })";
  tx "]";
  [];
  tx "export Symbol: ({ kind: ""sym"", sym: string }) = [";
  tx "    <sym: r""[^() ]*""> => ({ kind: ""sym"", sym })";
  tx "]"].
Definition readme_regex (s : str) : option hir :=
  if eqb s (tx "[1-9][0-9]*") then Some (HConcat [HClass [(49, 57)%N]; HRep ZeroOrMore (HClass [(48, 57)%N])])
  else if eqb s (tx "[^() ]*") then Some (HRep ZeroOrMore (HClass [(0, 31); (33, 39); (42, 1114111)]%N)) else None.
Theorem C72_readme_refuted :
  (forall c, parse_grammar (comment c ++ lines readme_grammar) = Panic PUnwrapNone) /\
  exists ast g l ps, parse_grammar (lines readme_grammar) = Ok ast /\ grammar_from_ast ast = Ok g /\ lalr_new readme_regex ehash g = Ok l /\
    lalr_parse l (tx "(add 34 35)") = Ok ps.
Proof.
  destruct (parse_grammar (lines readme_grammar)) as [ast| |] eqn:Ea; [|vm_compute in Ea; discriminate Ea..]. split.
  - destruct (C72_comment_refuted [] (lines readme_grammar) ast Ea (or_introl eq_refl)) as [H|(b1 & ts & b2 & a1 & a2 & E & _)]; [exact H|].
    destruct b1; discriminate.
  - destruct (grammar_from_ast ast) as [g| |] eqn:Eg; [|vm_compute in Ea; injection Ea as <-; vm_compute in Eg; discriminate Eg..].
    destruct (lalr_new readme_regex ehash g) as [l| |] eqn:El; [|vm_compute in Ea; injection Ea as <-; vm_compute in Eg; injection Eg as <-; vm_compute in El; discriminate El..].
    destruct (lalr_parse l (tx "(add 34 35)")) as [ps| |] eqn:Ep;
      [|vm_compute in Ea; injection Ea as <-; vm_compute in Eg; injection Eg as <-; vm_compute in El; injection El as <-; vm_compute in Ep; discriminate Ep..].
    exists ast, g, l, ps. auto.
Qed.
Print Assumptions C72_readme_refuted.

(** Both cases arise: a line between tokens, and a line inside a literal, where the literal gets
    longer. *)
Example C72_nonvacuous :
  (exists before after ast, before <> [] /\ line_start before /\ parse_grammar (before ++ after) = Ok ast /\ parse_grammar (before ++ comment (tx " x") ++ after) = Panic PUnwrapNone) /\
  (exists before after ast ast', line_start before /\ in_quotes before after /\ parse_grammar (before ++ after) = Ok ast /\ parse_grammar (before ++ comment (tx " x") ++ after) = Ok ast').
Proof.
  split.
  - exists (tx "export start S: (x) = [" ++ [10%N]), (tx """a"" => (1)" ++ [10%N] ++ tx "]"). eexists. split; [discriminate|]. split; [right; eexists; reflexivity|].
    split; vm_compute; reflexivity.
  - exists (tx "export start S: (x) =" ++ [10%N] ++ tx "[ ""a" ++ [10%N]), (tx "b"" => (1)" ++ [10%N] ++ tx "]"). do 2 eexists.
    split; [right; exists (tx "export start S: (x) =" ++ [10%N] ++ tx "[ ""a"); reflexivity|]. split; [|split; vm_compute; reflexivity].
    destruct (file_tokens (length (tx "export start S: (x) =" ++ [10%N] ++ tx "[ ")) (tx "export start S: (x) =" ++ [10%N] ++ tx "[ ")) as [ts| |] eqn:E; [|vm_compute in E; discriminate E..].
    exists (tx "export start S: (x) =" ++ [10%N] ++ tx "[ "), ts, (tx "a" ++ [10%N]), (tx "b"), (tx " => (1)" ++ [10%N] ++ tx "]").
    split; [reflexivity|]. split; [reflexivity|]. split; [apply Tokens_Lay, file_tokens_iff; exact E|].
    apply quotable_plain; vm_compute; intros H; repeat (destruct H as [H|H]; [discriminate|]); exact H.
Qed.
