(** Property C94: a check of what is built from a grammar file that settles what the generated types answer. *)
From Coq Require Import String.
From Verif Require Import Base Text Regex Nfa NfaProofs Dfa Lex LexSpec LexNfa LexProofs Grammar GrammarSpec GrammarProofs First Item ItemSpec ItemProofs ItemPlain
  GrammarCheck Table TableSpec MergeProofs TableProofs TableFacts LexGrammar LexGrammarProofs Parse ParseSpec ParseCheck TreeFacts Auto ParseProofs ParseTerm ParseCycle ParseComplete
  Report ReportSpec ReportProofs ReportExact Lalr EndSpec EndProofs Utf8Spec Utf8Proofs TsUtil TsText TsLex TsLexProofs LexGen TsParse TsParseSpec TsParseProofs LexGenProofs LexGenLexer TsScan TsTables TsModule ParseGenSpec ParseGen ParseGenProofs ParseGenFile ParseGenEmit ParseGenCheck
  GrammarFile GrammarFileSpec Witness PrintSpec
  PropsLex PropsGrammar PropsTable PropsParse PropsReport PropsEnd PropsTsLex PropsTsParse PropsLexGen PropsParseGen PropsGrammarFile PropsWhole PropsOutcome PropsParseEnd PropsPrint CompleteProofs PropsComplete Lisp PropsLisp PropsCheck.
Local Open Scope list_scope.

(** ** The check *)

(** Literals that are given names can be compared as they are written. *)
Definition literals_b (ast : list aprod) : bool :=
  forallb (fun p => forallb (fun b => forallb (fun x =>
    match x with INamed (Some _) (IStr s) => match unq 39 s with Some s' => eqb s' s | None => false end | _ => true end) (ab_syms b)) (ap_bodies p)) ast.
Lemma literals_b_ok ast : literals_b ast = true -> forall s, named ast (IStr s) -> unq 39 s = Some s.
Proof.
  unfold literals_b. rewrite forallb_forall. intros H s (p & b & n & Hp & Hb & Hx). specialize (H p Hp). rewrite forallb_forall in H.
  specialize (H b Hb). rewrite forallb_forall in H. specialize (H _ Hx). cbn in H. destruct (unq 39 s) as [s'|]; [|discriminate]. apply Base.eqb_eq in H. f_equal. exact H.
Qed.
(** Besides what the Rust parser needs (C93): no token needs a quote, the code given in the file
    is balanced, and no two tokens have the same kind. *)
Definition types_b (parse : str -> option hir) (ast : list aprod) (l : lalr) : bool :=
  sound_b parse l && quotes_b (l_grammar l) && codes_b ast && kinds_b (l_grammar l) && literals_b ast.

(** If the check succeeds, both files are generated and can be read, and for every text within the
    limits of the library:  if its symbols have a parse tree, the Rust parser finds that tree, and
    the type is the value of that tree if the rest of the text is one the type-level lexer
    accepts and there are less than 50 tokens and reductions, and no value otherwise.  If they have
    none, the Rust parser refuses the text and there is no value. *)
Theorem C94_checked :
  forall parse hash text ast l, build parse hash text = Ok l -> file_says text ast -> types_b parse ast l = true ->
  exists st ltext T ptext P, find ap_start ast = Some st /\
  lex_generate (l_lexer l) = Ok ltext /\ ReadLex ltext T /\ parse_generate ast l = Ok ptext /\ ReadParse ptext P /\
  forall V size code has_type regex_holds chars input, fits size (l_lexer l) -> own_codes chars ->
  (forall c, In c input -> map_get c chars <> None /\ (c <= N.of_nat size)%N) -> length input <= size ->
  well_typed code has_type regex_holds ast -> (forall r v, named ast (IReg r) -> regex_holds (Some (TLit v)) = true) ->
  let X := ts_pipeline size chars T P (EmitProduction V size ast code has_type regex_holds) input in
  exists ts rest syms, Tokenize (begins parse (l_grammar l)) (is_sym parse (l_grammar l)) 0 input ts rest /\
  Forall2 (fun x s => nth_error (lex_syms (l_grammar l)) (snd (fst x)) = Some s) ts syms /\
  (forall tr, tree_ok (l_grammar l) tr -> root (l_grammar l) tr = Some (SNon (ap_name st)) -> yield tr = syms ->
     (sliced input (map drop_idx ts) -> lalr_parse l input = Ok (postorder tr)) /\
     (unfinished (begins parse (l_grammar l)) input ts rest -> length syms + length (postorder tr) < 50 ->
        exists toks us v, toks_texts toks = map drop_idx ts /\ toks_syms toks = syms /\ Forall2 carries toks us /\
        Denotes V (l_grammar l) code tr us (SymNon (ap_name st) v) /\ X = Some (PStack [SymNon (ap_name st) v])) /\
     (forall s, X = Some (PStack s) -> unfinished (begins parse (l_grammar l)) input ts rest /\ length syms + length (postorder tr) < 50)) /\
  (~ derives (l_grammar l) [SNon (ap_name st)] syms ->
     (forall s, X <> Some (PStack s)) /\ (sliced input (map drop_idx ts) -> lalr_parse l input = Panic PInvalidToken)).
Proof.
  intros parse hash text ast l Hb Hsay Hs. unfold types_b in Hs.
  apply andb_true_iff in Hs as [Hs Hli]. apply andb_true_iff in Hs as [Hs Hk]. apply andb_true_iff in Hs as [Hs Hco]. apply andb_true_iff in Hs as [Hs Hq].
  destruct (C93_checked _ _ _ _ Hb Hs) as (ast' & st & Hsay' & Hg & Hst & Hun & H93).
  destruct (C51_reading text) as [HR _]. pose proof (proj2 (HR _) Hsay) as Ea. pose proof (proj2 (HR _) Hsay') as Ea'. rewrite Ea in Ea'. injection Ea' as <-.
  unfold sound_b in Hs. apply andb_true_iff in Hs as [Hs Hc]. apply andb_true_iff in Hs as [Hn Hh].
  destruct (hirs parse (lex_syms (l_grammar l))) as [hs|] eqn:Eh; [|discriminate]. apply andb_true_iff in Hh as [Hsp Hok].
  apply hirs_ok in Eh. apply split_b_ok in Hsp.
  assert (Hpr : Forall productive hs) by (apply Forall_forall; intros h Hin; rewrite forallb_forall in Hok; apply hir_ok_productive; auto).
  unfold build in Hb. rewrite Ea in Hb. cbn [bind] in Hb. rewrite Hg in Hb. cbn [bind] in Hb.
  pose proof (C52_file_ast _ _ Ea) as Hf. destruct (file_plain _ _ Hf Hg) as [Hp Hfr].
  assert (Hcl : closed (l_grammar l) (l_tables l)).
  { destruct (grammar_from_ast_ok _ _ Hg) as (s' & _ & W & _). apply (complete_b_iff _ _ _ W (proj2 Hp)), Hc. }
  destruct (C57_accepts_iff_partial parse hash text ast (l_grammar l) l st hs Hsay Hg Hst Hb (quotes_b_ok _ Hq) (codes_b_ok _ Hco) (kinds_b_ok _ Hk) (literals_b_ok _ Hli) Eh Hsp Hpr)
    as (ltext & T & ptext & P & E1 & E2 & E3 & E4 & H57).
  exists st, ltext, T, ptext, P. do 5 (split; auto). intros V size code has_type regex_holds chars input Hfit Hown Hin Hlen Hwt Hreg X.
  destruct (H57 V size code has_type regex_holds chars input Hfit Hown Hin Hlen Hwt Hreg) as (ts & r & syms & HT & HF & _ & Hacc & Hval). fold X in Hacc, Hval.
  specialize (Hacc Hcl). destruct (H93 input) as (ts' & r' & syms' & HT' & Hdet & HF' & _ & _ & Hout).
  destruct (Hdet _ _ HT) as [<- <-]. assert (syms' = syms) as -> by (eapply nth_syms_det; eauto).
  exists ts, r, syms. split; auto. split; auto.
  assert (Huni : forall tr tr', tree_ok (l_grammar l) tr -> root (l_grammar l) tr = Some (SNon (ap_name st)) -> yield tr = syms ->
            tree_ok (l_grammar l) tr' -> root (l_grammar l) tr' = Some (SNon (ap_name st)) -> yield tr' = syms -> tr = tr').
  { intros tr tr' H1 H2 H3 H1' H2' H3'. destruct (grammar_from_ast_ok _ _ Hg) as (s' & Hs' & W & Haug & _). rewrite Hst in Hs'. injection Hs' as <-.
    destruct (tree_tokens _ _ W (proj2 Hp) tr H1 H2) as (w & _ & _ & _ & Hw). apply (Hun w); repeat split; auto. congruence. }
  split.
  - intros tr H1 H2 H3. split; [|split].
    + intros Hsl. destruct (Hout Hsl) as [(tr' & H1' & H2' & H3' & E)|[Hnd _]]; [rewrite (Huni tr tr'); auto|].
      exfalso. apply Hnd. rewrite <- H3. apply tree_derives; auto.
    + intros Hu Hlt. apply (Hval Hu tr H1 H2 H3 (or_introl Hcl) Hlt).
    + intros s E. destruct (proj1 Hacc (ex_intro _ s E)) as (Hu & tr' & H1' & H2' & H3' & Hlt). rewrite (Huni tr tr'); auto.
  - intros Hnd. split.
    + intros s E. destruct (proj1 Hacc (ex_intro _ s E)) as (Hu & tr' & H1' & H2' & H3' & Hlt). apply Hnd. rewrite <- H3'. apply tree_derives; auto.
    + intros Hsl. destruct (Hout Hsl) as [(tr' & H1' & H2' & H3' & E)|[_ E]]; auto. exfalso. apply Hnd. rewrite <- H3'. apply tree_derives; auto.
Qed.
Print Assumptions C94_checked.

(** The committed grammar passes the check, and the other hypotheses hold for the text "(add 12)", whose
    symbols have a tree with 4 leaves and 5 reductions: both parsers find it. *)
Example C94_nonvacuous : exists l tr, build lisp_regex ehash lisp_text = Ok l /\ file_says lisp_text lisp_ast /\ types_b lisp_regex lisp_ast l = true /\
  fits 200 (l_lexer l) /\ own_codes abc /\ well_typed count (fun _ _ => true) (fun _ => true) lisp_ast /\
  (forall c, In c (tx "(add 12)") -> map_get c abc <> None /\ (c <= N.of_nat 200)%N) /\
  tree_ok (l_grammar l) tr /\ length (yield tr) = 4 /\ lalr_parse l (tx "(add 12)") = Ok (postorder tr) /\
  exists T P v, ts_pipeline 200 abc T P (EmitProduction nat 200 lisp_ast count (fun _ _ => true) (fun _ => true)) (tx "(add 12)") = Some (PStack [SymNon (tx "SExpr") v]).
Proof.
  destruct C57_nonvacuous as (g & l & c & st & hs & Hfs & Eg & Hst & El & Hq & Hc & Hk & Hlit & Hfit & Hown & _ & _ & _ & _ & Hwt & EC & Hx).
  assert (Hb : build lisp_regex ehash lisp_text = Ok l).
  { unfold build. destruct (C51_reading lisp_text) as [HR _]. rewrite (proj2 (HR _) Hfs). cbn [bind]. rewrite Eg. exact El. }
  assert (Ht : types_b lisp_regex lisp_ast l = true).
  { clear -Hb. vm_compute in Hb. injection Hb as <-. vm_compute. reflexivity. }
  assert (Htr : exists tr, tree_ok (l_grammar l) tr /\ length (yield tr) = 4 /\ lalr_parse l (tx "(add 12)") = Ok (postorder tr)).
  { clear -Hb. vm_compute in Hb. injection Hb as <-.
    exists (Node 1 [Leaf (Grammar.SStr (tx "(")); Node 2 [Node 5 [Leaf (Grammar.SStr (tx "add"))]; Node 3 [Node 6 [Leaf LispProofs.rint]]]; Leaf (Grammar.SStr (tx ")"))]).
    split; [apply tree_ok_b_ok; vm_compute; reflexivity|]. split; vm_compute; reflexivity. }
  destruct Htr as (tr & H1 & H2 & H3). exists l, tr. do 6 (split; auto). split; [|do 3 (split; auto); eauto].
  intros x Hi. repeat (destruct Hi as [<-|Hi]; [vm_compute; split; discriminate|]). destruct Hi.
Qed.
