(** C70: how the terminals are written does not matter. *)
From Coq Require Import Ascii String Permutation.
From Verif Require Import Base Text IsoSpec SpellSpec Regex Nfa Dfa Lex LexSpec LexProofs Grammar GrammarSpec GrammarProofs First Item ItemSpec ItemPlain Table MergeProofs
  TableSpec TableProofs TableFacts LexGrammar LexGrammarProofs Parse Lalr EndSpec EndProofs Iso IsoParse IsoGrammar Spell Witness GrammarCheck PropsTable PropsEnd.
Local Open Scope list_scope.

Local Ltac compute_ok := vm_compute; reflexivity.

(** Tables are built for both grammars or for neither, hash collisions apart. *)
Theorem C70_tables :
  forall X ast ast' g g', respelt X ast ast' -> grammar_from_ast ast = Ok g -> grammar_from_ast ast' = Ok g' -> eps_free g ->
  forall hash hash', (forall l, items g = Ok l -> collision_free hash l) -> (forall l, items g' = Ok l -> collision_free hash' l) ->
  (exists t, make_tables hash g = Ok t) <-> (exists t', make_tables hash' g' = Ok t').
Proof.
  intros X ast ast' g g' HR Hg Hg' He hash hash' Hc Hc'.
  pose proof (same_eps_free _ ast ast' g g' HR Hg Hg' He) as He'.
  destruct (same_iso _ ast ast' g g' HR Hg Hg') as (f & f' & P & P' & K & K' & HI & _).
  pose proof (iso_sym _ _ _ _ _ _ _ _ HI) as HI'.
  destruct (prods_rules _ _ Hg) as (st & _ & W & _). destruct (prods_rules _ _ Hg') as (st' & _ & W' & _).
  rewrite (C27_tables_built_iff _ _ Hg He hash), (C27_tables_built_iff _ _ Hg' He' hash'). split.
  - intros (l & El & _ & HO). destruct (iso_items _ _ _ _ _ _ _ _ HI _ _ W W' He He' l El) as (l' & El').
    exists l'. split; auto. split; auto. exact (iso_one_each _ _ _ _ _ _ _ _ HI HO).
  - intros (l & El & _ & HO). destruct (iso_items _ _ _ _ _ _ _ _ HI' _ _ W' W He' He l El) as (l' & El').
    exists l'. split; auto. split; auto. exact (iso_one_each _ _ _ _ _ _ _ _ HI' HO).
Qed.
Print Assumptions C70_tables.

(** The parsers do the same on corresponding sequences of tokens, whatever that ends in, up to the
    numbers of the productions. *)
Theorem C70_parser :
  forall X ast ast' g g', respelt X ast ast' -> grammar_from_ast ast = Ok g -> grammar_from_ast ast' = Ok g' -> eps_free g ->
  exists P K : nat -> nat,
    (forall p q, P p = P q -> p = q) /\ (forall j k, K j = K k -> j = k) /\ K 0 = 0 /\
    (forall p pr, nth_error (g_prods g) p = Some pr -> exists pr', nth_error (g_prods g') (P p) = Some pr' /\
       SNon (p_name pr') = X (SNon (p_name pr)) /\ p_syms pr' = map X (p_syms pr)) /\
    (forall k x, 0 < k -> nth_error (g_tokens g) k = Some x -> nth_error (g_tokens g') (K k) = Some (X x)) /\
    (forall hash hash' t t', make_tables hash g = Ok t -> make_tables hash' g' = Ok t' ->
       forall tokens, parse_impl g' t' (map K tokens) = rmap (map P) (parse_impl g t tokens)).
Proof.
  intros X ast ast' g g' HR Hg Hg' He.
  pose proof (same_eps_free _ ast ast' g g' HR Hg Hg' He) as He'.
  destruct (same_iso _ ast ast' g g' HR Hg Hg') as (f & f' & P & P' & K & K' & HI & Hf & HfX & _).
  destruct (prods_rules _ _ Hg) as (st & Hst & W & Ep). destruct (prods_rules _ _ Hg') as (st' & Hst' & W' & Ep').
  exists P, K. split; [|split; [|split; [|split; [|split]]]].
  - intros p q E. rewrite <- (bij_l _ _ (is_P _ _ _ _ _ _ _ _ HI) p), E. apply (bij_l _ _ (is_P _ _ _ _ _ _ _ _ HI)).
  - intros p q E. rewrite <- (bij_l _ _ (is_K _ _ _ _ _ _ _ _ HI) p), E. apply (bij_l _ _ (is_K _ _ _ _ _ _ _ _ HI)).
  - exact (is_K0 _ _ _ _ _ _ _ _ HI).
  - intros p pr Hp. destruct (fw_prod _ _ _ _ _ _ _ _ HI p pr Hp) as (pr' & Hp' & En & Es). exists pr'. split; auto.
    specialize (Hf p pr Hp). unfold xrule, shape in Hf. cbn [fst snd] in Hf. injection Hf as Hf1 Hf2. rewrite En, Es, Hf2, Hf1. split; auto.
    symmetry. apply rn_ok. destruct HR as [_ (s & s' & Hs & _ & _ & _ & Hk & _)]. apply Hk. rewrite Hs in Hst. injection Hst as <-.
    assert (Hin : In (shape pr) (map shape (g_prods g))) by (apply in_map; eauto using nth_error_In).
    rewrite Ep in Hin. destruct Hin as [E|Hin]; [left; unfold shape in E; congruence|].
    apply (rules_syms s ast (shape pr)); auto.
  - intros k x Hk Hx.
    destruct (token_table _ _ Hg) as (_ & Hb & _). destruct (proj2 (Hb x)) as (pr & Hpr & Hin); [exists k; auto|].
    rewrite (fw_tok _ _ _ _ _ _ _ _ HI _ _ Hx). rewrite (HfX pr x Hpr Hin). reflexivity.
  - intros hash hash' t t' Ht Ht' tokens.
    destruct (make_tables_built _ _ _ _ W Ht) as (lr0 & m & B). destruct (make_tables_built _ _ _ _ W' Ht') as (lr0' & m' & B').
    exact (iso_parse _ _ _ _ _ _ _ _ HI _ _ W W' He He' _ _ _ _ _ _ _ _ B B' tokens).
Qed.
Print Assumptions C70_parser.

(** The lexers find the same texts, under the names of corresponding terminals, and fail in the same
    way.  Missing: terminals for which the lexer is not exact (C10). *)
Theorem C70_lexer_partial :
  forall parse X ast ast' g g', respelt X ast ast' -> grammar_from_ast ast = Ok g -> grammar_from_ast ast' = Ok g' ->
  same_texts parse X g -> exact_lexer parse g -> exact_lexer parse g' ->
  forall L L', from_grammar parse g = Ok L -> from_grammar parse g' = Ok L' ->
  forall input, match lex L input, lex L' input with
    | Ok out, Ok out' => Forall2 (fun t t' => tk_val t' = tk_val t /\
        exists x, In x (lex_syms g) /\ tk_name t = spelling x /\ tk_name t' = spelling (X x)) out out'
    | Panic p, Panic p' => p = p'
    | _, _ => False
    end.
Proof.
  intros parse X ast ast' g g' HR Hg Hg' HX He He' L L' HL HL' input.
  destruct (from_grammar_inv _ _ _ HL) as (tokens & Et & EL). destruct (from_grammar_inv _ _ _ HL') as (tokens' & Et' & EL').
  exact (spell_lex parse X ast ast' g g' HR Hg Hg' HX He He' tokens tokens' L L' Et Et' EL EL' input).
Qed.
Print Assumptions C70_lexer_partial.

(** So the results for every text are the same.  Missing: terminals for which the lexer is not
    exact, and grammars in which a literal and a regex are written the same (C16). *)
Theorem C70_text_partial :
  forall parse X ast ast' g g', respelt X ast ast' -> grammar_from_ast ast = Ok g -> grammar_from_ast ast' = Ok g' -> eps_free g ->
  no_clash g -> no_clash g' -> same_texts parse X g -> exact_lexer parse g -> exact_lexer parse g' ->
  exists P : nat -> nat, (forall p q, P p = P q -> p = q) /\
    (forall p pr, nth_error (g_prods g) p = Some pr -> exists pr', nth_error (g_prods g') (P p) = Some pr' /\
       p_syms pr' = map X (p_syms pr)) /\
    forall hash hash' l l', lalr_new parse hash g = Ok l -> lalr_new parse hash' g' = Ok l' ->
    forall input, lalr_parse l' input = rmap (map P) (lalr_parse l input).
Proof.
  intros parse X ast ast' g g' HR Hg Hg' Hf Hno Hno' HX He He'.
  destruct (same_iso _ ast ast' g g' HR Hg Hg') as (f & f' & P & P' & K & K' & HI & HfP & HfX & _).
  exists P. split; [|split].
  - intros p q E. rewrite <- (bij_l _ _ (is_P _ _ _ _ _ _ _ _ HI) p), E. apply (bij_l _ _ (is_P _ _ _ _ _ _ _ _ HI)).
  - intros p pr Hp. destruct (fw_prod _ _ _ _ _ _ _ _ HI p pr Hp) as (pr' & Hp' & _ & Es). exists pr'. split; auto.
    rewrite Es. apply map_ext_in. intros x Hx. eauto using nth_error_In.
  - intros hash hash' l l' Hl Hl'.
    exact (spell_parse parse X ast ast' g g' HR Hg Hg' Hf hash hash' l l' Hl Hl' Hno Hno' HX He He' f f' P P' K K' HI HfX).
Qed.
Print Assumptions C70_text_partial.

(** ** What does matter *)
Definition re_lits (tbl : list (string * hir)) (r : str) : option hir :=
  match find (fun e => eqb r (tx (fst e))) tbl with Some e => Some (snd e) | None => None end.
Local Notation lit s := (SStr (tx s)).
Local Notation reg s := (SReg (tx s)).

Lemma lang_plus_group h w : Lang (HRep OneOrMore (HGroup h)) w <-> Lang (HRep OneOrMore h) w.
Proof.
  assert (G : forall k k', (forall u, Lang k u -> Lang k' u) -> forall u, Lang (HRep ZeroOrMore k) u -> Lang (HRep ZeroOrMore k') u).
  { intros k k' Hk u Hu. remember (HRep ZeroOrMore k) as z eqn:Ez. induction Hu; try discriminate; injection Ez as ->; constructor; auto. }
  assert (G' : forall k k', (forall u, Lang k u -> Lang k' u) -> forall u, Lang (HRep OneOrMore k) u -> Lang (HRep OneOrMore k') u).
  { intros k k' Hk u Hu. inversion Hu; subst. constructor; [auto|]. eapply G; eauto. }
  split; apply G'; intros u Hu; [inversion Hu; subst; auto|constructor; exact Hu].
Qed.

(** One case: two grammars, their parsers, and what the theorem above asks for apart from what is
    under test. *)
Definition case70 (parse : str -> option hir) (X : sym -> sym) (ast ast' : list aprod) (g g' : grammar) (l l' : lalr) : Prop :=
  respelt X ast ast' /\ grammar_from_ast ast = Ok g /\ grammar_from_ast ast' = Ok g' /\ plain g /\
  lalr_new parse ehash g = Ok l /\ lalr_new parse ehash g' = Ok l'.
Definition same_langs (parse : str -> option hir) (X : sym -> sym) (g : grammar) : Prop :=
  forall x, In x (lex_syms g) -> forall w, sym_lang parse (X x) w <-> sym_lang parse x w.
Definition respell (tbl : list (sym * sym)) (x : sym) : sym :=
  match find (fun e => eqb x (fst e)) tbl with Some e => snd e | None => x end.
Definition one70 (bodies : list (list isym)) : list aprod := [AProd (tx "S") (map (fun b => ABody b []) bodies) true []].

Lemma respelt_ok X ast ast' s s' : Permutation (map (xrule X) (ast_rules ast)) (ast_rules ast') ->
  find ap_start ast = Some s -> find ap_start ast' = Some s' ->
  X (SNon (ap_name s)) = SNon (ap_name s') -> X (SNon (aug_name (ap_name s))) = SNon (aug_name (ap_name s')) ->
  forallb (fun x => sym_kind (X x) =? sym_kind x) (ast_syms s ast) = true ->
  forallb (fun x => forallb (fun y => implb (eqb (X x) (X y)) (eqb x y)) (ast_syms s ast)) (ast_syms s ast) = true ->
  respelt X ast ast'.
Proof.
  intros HP Hs Hs' H1 H2 Hk Hi. constructor; auto. exists s, s'. rewrite forallb_forall in Hk, Hi. do 4 (split; auto). split.
  - intros x Hx. apply Nat.eqb_eq, Hk, Hx.
  - intros x y Hx Hy E. specialize (Hi x Hx). rewrite forallb_forall in Hi. specialize (Hi y Hy). rewrite E, eqb_refl in Hi.
    apply eqb_eq. exact Hi.
Qed.
Local Ltac respelt_tac := eapply respelt_ok; [vm_compute; reflexivity|compute_ok|compute_ok|compute_ok|compute_ok|compute_ok|compute_ok].
Local Ltac two parse w w' Eg El Eg' El' :=
  destruct (grammar_from_ast w) as [g| |] eqn:Eg; [|vm_compute in Eg; discriminate Eg..];
  destruct (grammar_from_ast w') as [g'| |] eqn:Eg'; [|vm_compute in Eg'; discriminate Eg'..];
  destruct (lalr_new parse ehash g) as [l| |] eqn:El; [|vm_compute in Eg; injection Eg as <-; vm_compute in El; discriminate El..];
  destruct (lalr_new parse ehash g') as [l'| |] eqn:El'; [|vm_compute in Eg'; injection Eg' as <-; vm_compute in El'; discriminate El'..].
Local Ltac both Eg El Eg' El' := vm_compute in Eg; injection Eg as <-; vm_compute in Eg'; injection Eg' as <-;
  vm_compute in El; injection El as <-; vm_compute in El'; injection El' as <-.
Local Ltac plain_tac := split; [apply eps_free_b_ok|apply eof_free_b_ok]; reflexivity.
Local Ltac clash_tac := let s := fresh in let H1 := fresh in let H2 := fresh in
  intros s [H1 H2]; simpl in H1, H2; repeat match goal with H : _ \/ _ |- _ => destruct H end; try discriminate; congruence || tauto.
Local Ltac exact_tac hs := exists hs; split; [repeat constructor|]; split; [apply split_b_ok; compute_ok|];
  repeat (constructor; [apply productive_hb_ok; compute_ok|]); constructor.

(** A pair of parentheses around a regex: of the regexes a and a+ the first comes first, of (a)+
    and a the other. *)
Definition re_paren : str -> option hir :=
  re_lits [("a", HLit 97); ("a+", HRep OneOrMore (HLit 97)); ("(a)+", HRep OneOrMore (HGroup (HLit 97)))]%string%N.
Definition x_paren : sym -> sym := respell [(SReg (tx "a+"), SReg (tx "(a)+"))].
Definition w_paren (r : string) : list aprod := one70 [[IReg (tx "a"); IStr (tx "!")]; [IReg (tx r); IStr (tx "?")]].
Theorem C70_order_refuted :
  exists parse X ast ast' g g' l l' input, case70 parse X ast ast' g g' l l' /\
    same_langs parse X g /\ no_clash g /\ no_clash g' /\ exact_lexer parse g /\ exact_lexer parse g' /\
    lalr_parse l input = Ok [1] /\ lalr_parse l' input = Panic PInvalidToken.
Proof.
  exists re_paren, x_paren, (w_paren "a+"), (w_paren "(a)+").
  assert (HR : respelt x_paren (w_paren "a+") (w_paren "(a)+")) by respelt_tac.
  two re_paren (w_paren "a+") (w_paren "(a)+") Eg El Eg' El'. exists g, g', l, l', (tx "a!").
  assert (HC : case70 re_paren x_paren (w_paren "a+") (w_paren "(a)+") g g' l l').
  { split; auto. split; auto. split; auto. split; [|auto]. both Eg El Eg' El'. plain_tac. }
  split; auto. clear HC. both Eg El Eg' El'. split; [|split; [clash_tac|split; [clash_tac|split; [|split; [|split; compute_ok]]]]].
  - intros x Hx w. simpl in Hx. destruct Hx as [<-|[<-|[<-|[<-|[]]]]]; try reflexivity.
    split; intros (h & Eh & Hl); injection Eh as <-; eexists; (split; [reflexivity|]); apply lang_plus_group; exact Hl.
  - exact_tac [lit_hir (tx "!"); lit_hir (tx "?"); HLit 97%N; HRep OneOrMore (HLit 97%N)].
  - exact_tac [lit_hir (tx "!"); lit_hir (tx "?"); HRep OneOrMore (HGroup (HLit 97%N)); HLit 97%N].
Qed.
Print Assumptions C70_order_refuted.

(** A keyword written as a regex: the literal comes before every regex, the regex does not. *)
Definition re_word : str -> option hir :=
  re_lits [("if", HConcat [HLit 105; HLit 102]); ("[a-z]+", HRep OneOrMore (HClass [(97, 122)]))]%string%N.
Definition x_word : sym -> sym := respell [(SStr (tx "if"), SReg (tx "if"))].
Definition w_word (k : isym) : list aprod := one70 [[k; IStr (tx "!")]; [IReg (tx "[a-z]+"); IStr (tx "?")]].
Theorem C70_keyword_refuted :
  exists parse X ast ast' g g' l l' input, case70 parse X ast ast' g g' l l' /\
    same_langs parse X g /\ no_clash g /\ no_clash g' /\ exact_lexer parse g /\ exact_lexer parse g' /\
    lalr_parse l input = Ok [1] /\ lalr_parse l' input = Panic PInvalidToken.
Proof.
  exists re_word, x_word, (w_word (IStr (tx "if"))), (w_word (IReg (tx "if"))).
  assert (HR : respelt x_word (w_word (IStr (tx "if"))) (w_word (IReg (tx "if")))) by respelt_tac.
  two re_word (w_word (IStr (tx "if"))) (w_word (IReg (tx "if"))) Eg El Eg' El'. exists g, g', l, l', (tx "if!").
  assert (HC : case70 re_word x_word (w_word (IStr (tx "if"))) (w_word (IReg (tx "if"))) g g' l l').
  { split; auto. split; auto. split; auto. split; [|auto]. both Eg El Eg' El'. plain_tac. }
  split; auto. clear HC. both Eg El Eg' El'. split; [|split; [clash_tac|split; [clash_tac|split; [|split; [|split; compute_ok]]]]].
  - intros x Hx w. simpl in Hx. destruct Hx as [<-|[<-|[<-|[<-|[]]]]]; try reflexivity.
    split.
    + intros (h & Eh & Hl). injection Eh as <-. apply (lang_concat_lits [105; 102]%N) in Hl. exact Hl.
    + intros Hw. eexists. split; [reflexivity|]. apply (lang_concat_lits [105; 102]%N). exact Hw.
  - exact_tac [lit_hir (tx "!"); lit_hir (tx "?"); lit_hir (tx "if"); HRep OneOrMore (HClass [(97, 122)]%N)].
  - exact_tac [lit_hir (tx "!"); lit_hir (tx "?"); HRep OneOrMore (HClass [(97, 122)]%N); HConcat [HLit 105; HLit 102]%N].
Qed.
Print Assumptions C70_keyword_refuted.

(** A regex written as a literal of the grammar is: (a)+ as a+, beside the literal "a+". *)
Definition x_text : sym -> sym := respell [(SReg (tx "(a)+"), SReg (tx "a+"))].
Definition w_text (r : string) : list aprod := one70 [[IStr (tx "a+"); IStr (tx "!")]; [IReg (tx r); IStr (tx "?")]].
Theorem C70_clash_refuted :
  exists parse X ast ast' g g' l l' input, case70 parse X ast ast' g g' l l' /\
    same_texts parse X g /\ no_clash g /\ exact_lexer parse g /\ exact_lexer parse g' /\
    lalr_parse l input = Ok [1] /\ lalr_parse l' input = Panic PInvalidToken.
Proof.
  exists re_paren, x_text, (w_text "(a)+"), (w_text "a+").
  assert (HR : respelt x_text (w_text "(a)+") (w_text "a+")) by respelt_tac.
  two re_paren (w_text "(a)+") (w_text "a+") Eg El Eg' El'. exists g, g', l, l', (tx "a+!").
  assert (HC : case70 re_paren x_text (w_text "(a)+") (w_text "a+") g g' l l').
  { split; auto. split; auto. split; auto. split; [|auto]. both Eg El Eg' El'. plain_tac. }
  split; auto. clear HC. both Eg El Eg' El'. split; [|split; [clash_tac|split; [|split; [|split; compute_ok]]]].
  - split.
    + intros x Hx w _. simpl in Hx. destruct Hx as [<-|[<-|[<-|[<-|[]]]]]; try reflexivity.
      split; intros (h & Eh & Hl); injection Eh as <-; eexists; (split; [reflexivity|]); apply lang_plus_group; exact Hl.
    + intros x y w Hx Hy _ _ _. simpl in Hx, Hy.
      destruct Hx as [<-|[<-|[<-|[<-|[]]]]]; destruct Hy as [<-|[<-|[<-|[<-|[]]]]]; reflexivity.
  - exact_tac [lit_hir (tx "!"); lit_hir (tx "?"); lit_hir (tx "a+"); HRep OneOrMore (HGroup (HLit 97%N))].
  - exact_tac [lit_hir (tx "!"); lit_hir (tx "?"); lit_hir (tx "a+"); HRep OneOrMore (HLit 97%N)].
Qed.
Print Assumptions C70_clash_refuted.

(** A range written as an alternation: with [a-d]x the ranges of the grammar are cut badly and "bz"
    is no token; with (a|b|c|d)x they are not. *)
Definition re_cut : str -> option hir :=
  re_lits [("[a-d]x", HConcat [HClass [(97, 100)]; HLit 120]);
           ("(a|b|c|d)x", HConcat [HGroup (HAlt [HLit 97; HLit 98; HLit 99; HLit 100]); HLit 120]);
           ("[a-i]y", HConcat [HClass [(97, 105)]; HLit 121]);
           ("[b-f]w", HConcat [HClass [(98, 102)]; HLit 119]); ("bz", HConcat [HLit 98; HLit 122])]%string%N.
Definition x_cut : sym -> sym := respell [(SReg (tx "[a-d]x"), SReg (tx "(a|b|c|d)x"))].
Definition w_cut (r : string) : list aprod := one70 [[IReg (tx r)]; [IReg (tx "[a-i]y")]; [IReg (tx "[b-f]w")]; [IReg (tx "bz")]].
Theorem C70_ranges_refuted :
  exists parse X ast ast' g g' l l' input, case70 parse X ast ast' g g' l l' /\
    same_texts parse X g /\ no_clash g /\ no_clash g' /\ exact_lexer parse g' /\
    lalr_parse l input = Panic PInvalidToken /\ lalr_parse l' input = Ok [4].
Proof.
  exists re_cut, x_cut, (w_cut "[a-d]x"), (w_cut "(a|b|c|d)x").
  assert (HR : respelt x_cut (w_cut "[a-d]x") (w_cut "(a|b|c|d)x")) by respelt_tac.
  two re_cut (w_cut "[a-d]x") (w_cut "(a|b|c|d)x") Eg El Eg' El'. exists g, g', l, l', (tx "bz").
  assert (HC : case70 re_cut x_cut (w_cut "[a-d]x") (w_cut "(a|b|c|d)x") g g' l l').
  { split; auto. split; auto. split; auto. split; [|auto]. both Eg El Eg' El'. plain_tac. }
  split; auto. clear HC. both Eg El Eg' El'. split; [|split; [clash_tac|split; [clash_tac|split; [|split; compute_ok]]]].
  - split.
    + intros x Hx w _. simpl in Hx. destruct Hx as [<-|[<-|[<-|[<-|[]]]]]; try reflexivity.
      split; intros (h & Eh & Hl); injection Eh as <-; eexists; (split; [reflexivity|]);
        (inversion Hl as [| | | | | | | | | | |h0 hs0 w1 w2 H1 H2|]; subst; constructor; [|exact H2]).
      * inversion H1 as [| | | | | | | | |h1 u1 H3| | |]; subst. inversion H3 as [| | | | | | | | | | | |h1 hs1 u1 Hin H4]; subst.
        simpl in Hin. destruct Hin as [<-|[<-|[<-|[<-|[]]]]]; inversion H4; subst; eapply L_class; try (left; reflexivity); lia.
      * inversion H1 as [| |rs lo hi c Hin Hc| | | | | | | | | |]; subst. destruct Hin as [E|[]]. injection E as <- <-.
        assert (Hc' : (c = 97 \/ c = 98 \/ c = 99 \/ c = 100)%N) by lia. constructor.
        destruct Hc' as [->|[->|[->| ->]]]; (eapply L_alt; [|constructor]; simpl; tauto).
    + intros x y w Hx Hy _ _ _. simpl in Hx, Hy.
      destruct Hx as [<-|[<-|[<-|[<-|[]]]]]; destruct Hy as [<-|[<-|[<-|[<-|[]]]]]; reflexivity.
  - exact_tac [HConcat [HGroup (HAlt [HLit 97; HLit 98; HLit 99; HLit 100]); HLit 120]; HConcat [HClass [(97, 105)]; HLit 121];
      HConcat [HClass [(98, 102)]; HLit 119]; HConcat [HLit 98; HLit 122]]%N.
Qed.
Print Assumptions C70_ranges_refuted.

(** The hypotheses are met: rules in another order, another name for the start symbol, a literal
    written as a regex and a regex with parentheses; the numbers of tokens and productions differ. *)
Definition re_ok : str -> option hir :=
  re_lits [("a+", HRep OneOrMore (HLit 97)); ("(a)+", HRep OneOrMore (HGroup (HLit 97))); ("b", HLit 98); ("c", HLit 99)]%string%N.
Definition x_ok : sym -> sym :=
  respell [(SReg (tx "a+"), SReg (tx "(a)+")); (SStr (tx "c"), SReg (tx "c")); (SNon (tx "S"), SNon (tx "List")); (SNon (tx "S'"), SNon (tx "List'"))].
Definition w_ok : list aprod := one70 [[IReg (tx "a+"); IReg (tx "b"); INon (tx "S")]; [IStr (tx "c")]].
Definition w_ok' : list aprod :=
  [AProd (tx "List") (map (fun b => ABody b []) [[IReg (tx "c")]; [IReg (tx "(a)+"); IReg (tx "b"); INon (tx "List")]]) true []].
Example C70_nonvacuous : exists g g' l l', case70 re_ok x_ok w_ok w_ok' g g' l l' /\
  same_texts re_ok x_ok g /\ no_clash g /\ no_clash g' /\ exact_lexer re_ok g /\ exact_lexer re_ok g' /\
  g_tokens g = [SEof; SStr (tx "c"); SNon (tx "S"); SReg (tx "a+"); SReg (tx "b")] /\
  g_tokens g' = [SEof; SNon (tx "List"); SReg (tx "(a)+"); SReg (tx "b"); SReg (tx "c")] /\
  lalr_parse l (tx "aab abc") = Ok [2; 1; 1] /\ lalr_parse l' (tx "aab abc") = Ok [1; 2; 2] /\
  lalr_parse l (tx "aabb") = Panic PInvalidToken /\ lalr_parse l' (tx "aabb") = Panic PInvalidToken.
Proof.
  assert (HR : respelt x_ok w_ok w_ok').
  { eapply respelt_ok; [|compute_ok..]. exact (Permutation_rev (map (xrule x_ok) (ast_rules w_ok))). }
  two re_ok w_ok w_ok' Eg El Eg' El'. exists g, g', l, l'.
  assert (HC : case70 re_ok x_ok w_ok w_ok' g g' l l').
  { split; auto. split; auto. split; auto. split; [|auto]. both Eg El Eg' El'. plain_tac. }
  split; auto. clear HC. both Eg El Eg' El'. split; [|split; [clash_tac|split; [clash_tac|split; [|split; [|]]]]].
  - assert (Ha : forall w, Lang (HRep OneOrMore (HLit 97%N)) w -> exists v, w = 97%N :: v).
    { intros w Hw. inversion Hw as [| | | | | | |h w1 w2 H1 H2| | | | |]; subst. inversion H1; subst. eexists. reflexivity. }
    split.
    + intros x Hx w _. simpl in Hx. destruct Hx as [<-|[<-|[<-|[]]]]; try reflexivity.
      * split; [intros (h & Eh & Hl); injection Eh as <-; inversion Hl; reflexivity|].
        simpl. intros ->. eexists. split; [reflexivity|constructor].
      * split; intros (h & Eh & Hl); injection Eh as <-; eexists; (split; [reflexivity|]); apply lang_plus_group; exact Hl.
    + intros x y w Hx Hy _ Hl Hl'. simpl in Hx, Hy.
      destruct Hx as [<-|[<-|[<-|[]]]]; destruct Hy as [<-|[<-|[<-|[]]]]; try reflexivity; exfalso; simpl in Hl, Hl';
        repeat match goal with H : exists h, _ = Some h /\ _ |- _ => let h := fresh in let E := fresh in destruct H as (h & E & H); vm_compute in E; injection E as <- end;
        try (apply Ha in Hl as [v ->]); try (apply Ha in Hl' as [v' ->]); subst; try discriminate;
        try (inversion Hl; subst); try (inversion Hl'; subst); discriminate.
  - exact_tac [lit_hir (tx "c"); HRep OneOrMore (HLit 97%N); HLit 98%N].
  - exact_tac [HRep OneOrMore (HGroup (HLit 97%N)); HLit 98%N; HLit 99%N].
  - repeat split; compute_ok.
Qed.
