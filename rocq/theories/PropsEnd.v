(** Property C36: lexer and parser together. *)
From Verif Require Import Base Regex Nfa Dfa Lex LexSpec LexNfa LexProofs PropsLex Grammar GrammarSpec GrammarProofs GrammarCheck
  First Item ItemSpec Table TableSpec MergeProofs TableProofs TableFacts Witness PropsTable LexGrammar LexGrammarProofs
  Parse ParseSpec ParseCheck TreeFacts PropsParse Lalr EndSpec EndProofs Utf8Spec Utf8Proofs.

Local Ltac compute_ok := vm_compute; reflexivity.

(** A way to read the input as white space and texts of symbols, up to the rest. *)
Definition toks_syms (toks : list (nat * sym * list N)) : list sym := map (fun x => snd (fst x)) toks.
Definition toks_texts (toks : list (nat * sym * list N)) : list (nat * list N) := map (fun x => (fst (fst x), snd x)) toks.
Definition reading (parse : str -> option hir) (g : grammar) (input : list N) (toks : list (nat * sym * list N)) (rest : list N) : Prop :=
  Layout 0 input (toks_texts toks) rest /\
  forall p x u, In (p, x, u) toks -> In x (lex_syms g) /\ sym_lang parse x u.

(** No literal has the same text as a regex (in quotes and slashes); C16 shows what goes wrong
    otherwise. *)
Definition no_clash (g : grammar) : Prop := forall s, ~ (In (SStr s) (g_tokens g) /\ In (SReg s) (g_tokens g)).

(** Grammar files satisfy the conditions of C29-C33. *)
Theorem C36_file_grammars :
  forall ast g, file_ast ast -> grammar_from_ast ast = Ok g -> plain g /\ start_fresh g.
Proof. exact file_plain. Qed.
Print Assumptions C36_file_grammars.

Lemma reading_of_tokens parse g tokens input ts syms r : grammar_tokens parse g = Ok tokens ->
  Layout 0 input (map drop_idx ts) r ->
  (forall p i u, In (p, i, u) ts -> exists td h, nth_error tokens i = Some (td, h) /\ Lang h u) ->
  Forall2 (fun x s => nth_error (lex_syms g) (snd (fst x)) = Some s) ts syms ->
  exists toks, reading parse g input toks r /\ toks_syms toks = syms /\ toks_texts toks = map drop_idx ts.
Proof.
  intros Et HL Hin HF.
  enough (H : exists toks, toks_texts toks = map drop_idx ts /\ toks_syms toks = syms /\
              forall p x u, In (p, x, u) toks -> In x (lex_syms g) /\ sym_lang parse x u).
  { destruct H as (toks & E1 & E2 & H). exists toks. split; [split; [rewrite E1; exact HL|exact H]|auto]. }
  clear HL. induction HF as [|[[p i] u] s ts syms Hs _ IH].
  - exists []. repeat split; intros; contradiction.
  - destruct IH as (toks & E1 & E2 & H); [intros; eapply Hin; right; eassumption|].
    exists ((p, s, u) :: toks). unfold toks_syms, toks_texts in *. simpl. rewrite E1, E2. split; [reflexivity|]. split; [reflexivity|].
    intros p' x' u' [E|Hx]; [|eauto]. injection E as <- <- <-. simpl in Hs. split; [eauto using nth_error_In|].
    destruct (Hin p i u) as (td & h & Hn & Hh); [left; reflexivity|].
    destruct (def_sym _ _ _ Et _ _ _ Hn) as (k & y & Hy & _ & _ & Hsh).
    assert (y = s) by congruence. subst. apply (sym_hir_lang _ _ _ Hsh), Hh.
Qed.

Lemma sentence_derives g start w l : symbols g w l -> terminals l -> (sentence g start w <-> derives g [SNon start] l).
Proof.
  intros Hs Ht. split; [|intros; exists l; auto]. intros (l' & Hs' & _ & Hd).
  replace l with l'; auto. unfold symbols in *. rewrite Hs in Hs'. clear -Hs'.
  revert l' Hs'. induction l as [|x l IH]; intros [|y l'] H; try discriminate; auto. injection H as -> H. f_equal. auto.
Qed.

(** The symbols of the tokens found. *)
Lemma own_syms parse g tokens : grammar_tokens parse g = Ok tokens ->
  forall ts : list (nat * nat * list N), (forall p i u, In (p, i, u) ts -> exists td h, nth_error tokens i = Some (td, h)) ->
  exists syms, Forall2 (fun x s => nth_error (lex_syms g) (snd (fst x)) = Some s) ts syms.
Proof.
  intros Et. induction ts as [|[[p i] u] ts IH]; intros H; [exists []; constructor|].
  destruct IH as [syms IH]; [intros; eapply H; right; eauto|]. destruct (H p i u (or_introl eq_refl)) as (td & h & E).
  destruct (def_sym _ _ _ Et _ _ _ E) as (k & y & Hy & _). exists (y :: syms). constructor; auto.
Qed.
Lemma nth_syms_det g (ts : list (nat * nat * list N)) : forall l l', Forall2 (fun x s => nth_error (lex_syms g) (snd (fst x)) = Some s) ts l ->
  Forall2 (fun x s => nth_error (lex_syms g) (snd (fst x)) = Some s) ts l' -> l' = l.
Proof. intros l l2 HF. revert l2. induction HF; intros l2 H'; inversion H'; subst; f_equal; auto; congruence. Qed.
Lemma with_values parse g tokens : grammar_tokens parse g = Ok tokens -> forall td h, In (td, h) tokens -> td_with_val td = true.
Proof. intros Et td h Hi. apply (grammar_tokens_spec _ _ _ Et) in Hi as (k & x & n & _ & _ & -> & _). reflexivity. Qed.

(** Every text is read as white space and symbols up to some point.  The parser panics if the texts
    of the symbols cannot be cut out (C14), which does not happen for ASCII texts.  Otherwise what
    is accepted is a sentence; and if the tables have all transitions, sentences are accepted and
    everything else is reported as an invalid token. *)
Theorem C36_decides_partial :
  forall parse hash ast g st l, file_ast ast -> grammar_from_ast ast = Ok g -> find ap_start ast = Some st ->
  lalr_new parse hash g = Ok l -> no_clash g ->
  forall input, exists toks rest, reading parse g input toks rest /\ (ascii input -> sliced input (toks_texts toks)) /\
    (~ sliced input (toks_texts toks) -> lalr_parse l input = Panic PSlice) /\
    ((exists ps, lalr_parse l input = Ok ps) -> derives g [SNon (ap_name st)] (toks_syms toks)) /\
    (closed g (l_tables l) -> sliced input (toks_texts toks) ->
       ((exists ps, lalr_parse l input = Ok ps) <-> derives g [SNon (ap_name st)] (toks_syms toks)) /\
       (lalr_parse l input = Panic PInvalidToken <-> ~ derives g [SNon (ap_name st)] (toks_syms toks))).
Proof.
  intros parse hash ast g s l Hf Hg Hs Hl Hno input. destruct (file_plain _ _ Hf Hg) as [Hp Hfr].
  destruct (new_parts _ _ _ _ Hl) as (_ & HL & Ht). destruct (from_grammar_inv _ _ _ HL) as (tokens & Et & EL).
  destruct (lex_any tokens _ input EL) as (ts & r & Hlay & Hin & El & _).
  assert (Hts : forall p i u, In (p, i, u) ts -> exists td h, nth_error tokens i = Some (td, h)).
  { intros p i u Hx. destruct (Hin p i u Hx) as (_ & td & h & H & _). eauto. }
  destruct (own_syms _ _ _ Et ts Hts) as (syms & HF).
  destruct (reading_of_tokens parse g tokens input ts syms r Et Hlay) as (toks & Hr & Esy & Etx); auto.
  { intros p i u Hx. apply (Hin p i u Hx). }
  exists toks, r. split; auto. rewrite Esy, Etx. split; [intros Ha; eapply ascii_sliced; eauto|].
  destruct (slice_all tokens input ts (with_values _ _ _ Et) Hts) as [[Hsl [out Eo]]|[Hsl Eo]].
  2: { rewrite Eo in El. unfold lalr_parse. rewrite El. cbn [bind]. split; [auto|]. split; [intros [ps E]; discriminate|contradiction]. }
  split; [contradiction|].
  destruct (parse_tokens _ _ _ _ _ Hg Hl tokens Et Hno input ts out El (eq_trans El Eo) Hts) as (syms' & w & HF' & Hw & Hend & Htm & Ep).
  assert (syms' = syms) as -> by (eapply nth_syms_det; eauto).
  rewrite Ep. pose proof (sentence_derives g (ap_name s) w syms Hw Htm) as Hsd. split.
  - intros [ps H]. apply Hsd.
    destruct (C29_soundness _ _ _ Hg Hs (proj2 Hp) Hfr _ _ Ht _ _ _ Hend H) as (tr & (Ho & Hroot & Hy) & _ & Hd & _).
    exists (yield tr). split; auto. split; auto. eapply tree_terminals; eauto.
  - intros Hcl _. destruct (C30_accepts_exactly_the_sentences_partial _ _ _ Hg Hs Hp Hfr _ _ Ht Hcl _ _ Hend) as [H1 H2].
    rewrite H1, H2, Hsd. tauto.
Qed.
Print Assumptions C36_decides_partial.

(** When the pieces refine the ranges, and for texts whose end is no cut-off symbol, the symbols are those
    of the maximal-munch reading, which is unique. *)
Theorem C36_decides_reference_partial :
  forall parse hash ast g st l hs, file_ast ast -> grammar_from_ast ast = Ok g -> find ap_start ast = Some st ->
  lalr_new parse hash g = Ok l -> no_clash g ->
  Forall2 (fun x h => sym_hir parse x = Some h) (lex_syms g) hs -> split_refines hs -> Forall productive hs ->
  forall input, ascii input ->
  (forall a b, input = a ++ b -> b <> [] -> begins parse g b -> exists i, is_sym parse g b i) ->
  exists syms rest, reference parse g input syms rest /\
    (forall syms' rest', reference parse g input syms' rest' -> syms' = syms /\ rest' = rest) /\
    ((exists ps, lalr_parse l input = Ok ps) -> derives g [SNon (ap_name st)] syms) /\
    (closed g (l_tables l) ->
       ((exists ps, lalr_parse l input = Ok ps) <-> derives g [SNon (ap_name st)] syms) /\
       (lalr_parse l input = Panic PInvalidToken <-> ~ derives g [SNon (ap_name st)] syms)).
Proof.
  intros parse hash ast g s l hs Hf Hg Hs Hl Hno Hhs Hwn Hpr input Ha Hends. destruct (file_plain _ _ Hf Hg) as [Hp Hfr].
  destruct (new_parts _ _ _ _ Hl) as (_ & HL & Ht). destruct (from_grammar_inv _ _ _ HL) as (tokens & Et & EL).
  assert (hs = map snd tokens) as ->.
  { pose proof (defs_aligned _ _ _ _ Et) as HD. unfold lex_syms in Hhs. revert HD Hhs. generalize (filter lexical (g_tokens g)) as ys.
    clear. intros ys HD. revert hs. induction HD as [|y th ys ths (Hy & _) _ IH]; intros hs H; inversion H; subst; auto.
    simpl. f_equal; [congruence|auto]. }
  rewrite Forall_forall in Hpr.
  destruct (C15_maximal_munch_partial tokens _ EL Hwn Hpr input) as (ts & more & r & (El & Ea) & HM & Hmore).
  rewrite Hmore, app_nil_r in HM.
  2: { intros a b E Hb Hv. apply (begins_viable _ _ _ Et) in Hv. destruct (Hends a b E Hb Hv) as [i Hi]. exists i.
       apply (first_is_sym _ _ _ Et), Hi. }
  assert (HM' : Munch (begins parse g) (is_sym parse g) 0 input ts r).
  { revert HM. apply munch_ext; [apply begins_viable; auto|apply first_is_sym; auto]. }
  assert (Hin : forall p i u, In (p, i, u) ts -> exists td h, nth_error tokens i = Some (td, h)).
  { intros p i u Hx. destruct (munch_in _ _ _ _ _ _ HM p i u Hx) as (_ & (h & Hh & _) & _). rewrite nth_error_map in Hh.
    destruct (nth_error tokens i) as [[td h']|]; [eauto|discriminate]. }
  destruct (parse_tokens _ _ _ _ _ Hg Hl tokens Et Hno input ts _ El (Ea Ha) Hin) as (syms & w & HF & Hw & Hend & Htm & Ep).
  exists syms, r. split; [exists ts; auto|]. split.
  { intros syms' r' (ts' & HM2 & HF').
    assert (ts' = ts /\ r' = r) as [-> ->].
    { eapply munch_det; eauto. intros v i j [(x & Hx & Hvx) Hi] [(y & Hy & Hvy) Hj].
      destruct (Nat.lt_trichotomy i j) as [H|[H|H]]; auto; exfalso; [exact (Hj i x H Hx Hvx)|exact (Hi j y H Hy Hvy)]. }
    split; auto. clear -HF HF'. revert syms' HF'. induction HF; intros syms' H'; inversion H'; subst; f_equal; auto; congruence. }
  rewrite Ep. pose proof (sentence_derives g (ap_name s) w syms Hw Htm) as Hsd. split.
  - intros [ps H]. apply Hsd.
    destruct (C29_soundness _ _ _ Hg Hs (proj2 Hp) Hfr _ _ Ht _ _ _ Hend H) as (tr & (Ho & Hroot & Hy) & _ & Hd & _).
    exists (yield tr). split; auto. split; auto. eapply tree_terminals; eauto.
  - intros Hcl. destruct (C30_accepts_exactly_the_sentences_partial _ _ _ Hg Hs Hp Hfr _ _ Ht Hcl _ _ Hend) as [H1 H2].
    rewrite H1, H2, Hsd. tauto.
Qed.
Print Assumptions C36_decides_reference_partial.

(** Whether or not all transitions are there, and wherever the text stops: the parser accepts exactly
    when the symbols read before the point where maximal munch stops have a parse tree along which
    the tables have all transitions, and it answers with the reductions of that tree. *)
Theorem C36_accepts_iff_partial :
  forall parse hash ast g st l hs, file_ast ast -> grammar_from_ast ast = Ok g -> find ap_start ast = Some st ->
  lalr_new parse hash g = Ok l -> no_clash g ->
  Forall2 (fun x h => sym_hir parse x = Some h) (lex_syms g) hs -> split_refines hs -> Forall productive hs ->
  forall input,
  exists ts rest syms, Tokenize (begins parse g) (is_sym parse g) 0 input ts rest /\
    Forall2 (fun x s => nth_error (lex_syms g) (snd (fst x)) = Some s) ts syms /\
    (~ sliced input (map drop_idx ts) -> lalr_parse l input = Panic PSlice) /\
    (forall ps, lalr_parse l input = Ok ps <->
       sliced input (map drop_idx ts) /\
       exists tr j, tree_ok g tr /\ root g tr = Some (SNon (ap_name st)) /\ yield tr = syms /\ moves g (l_tables l) 0 tr j /\ ps = postorder tr) /\
    (closed g (l_tables l) -> sliced input (map drop_idx ts) -> forall tr, tree_ok g tr -> root g tr = Some (SNon (ap_name st)) -> yield tr = syms ->
       lalr_parse l input = Ok (postorder tr)).
Proof.
  intros parse hash ast g st l hs Hf Hg Hst Hl Hno Hhs Hsd Hpr input. destruct (file_plain _ _ Hf Hg) as [Hp Hfr].
  destruct (new_parts _ _ _ _ Hl) as (_ & HL & Ht). destruct (from_grammar_inv _ _ _ HL) as (tokens & Et & EL).
  assert (hs = map snd tokens) as ->.
  { pose proof (defs_aligned _ _ _ _ Et) as HD. unfold lex_syms in Hhs. revert HD Hhs. generalize (filter lexical (g_tokens g)) as ys.
    clear. intros ys HD. revert hs. induction HD as [|y th ys ths (Hy & _) _ IH]; intros hs H; inversion H; subst; auto.
    simpl. f_equal; [congruence|auto]. }
  rewrite Forall_forall in Hpr.
  destruct (lex_tokens_gen tokens _ EL) as (lv & ac & Hs & Hall & _ & _ & Hex). destruct (Hall input) as (ts & r & _ & HT & El & _).
  destruct (Hex Hsd) as [Hac Hlv]. specialize (Hlv Hpr).
  assert (Hlv' : forall w, w <> [] -> (lv w <-> begins parse g w)) by (intros w Hw; rewrite (Hlv w Hw); apply begins_viable; auto).
  assert (Hac' : forall w j, w <> [] -> (ac w j <-> is_sym parse g w j)) by (intros w j Hw; rewrite (Hac w j Hw); apply first_is_sym; auto).
  assert (Hts : forall p j u, In (p, j, u) ts -> exists td h, nth_error tokens j = Some (td, h)).
  { intros p j u Hx. destruct (tokenize_longest _ _ _ _ _ _ HT p j u Hx) as (a & b & _ & _ & (_ & Hau & _)).
    apply Hs in Hau as (h & Hj & _). rewrite nth_error_map in Hj. destruct (nth_error tokens j) as [[td h']|]; [eauto|discriminate]. }
  destruct (own_syms _ _ _ Et ts Hts) as (syms & HF).
  exists ts, r, syms. split; [revert HT; apply tokenize_ext; auto|]. split; auto.
  destruct (slice_all tokens input ts (with_values _ _ _ Et) Hts) as [[Hsl [out Eo]]|[Hsl Eo]].
  2: { rewrite Eo in El. unfold lalr_parse. rewrite El. cbn [bind]. split; [auto|].
       split; [intros ps; split; [discriminate|intros [H _]; contradiction]|contradiction]. }
  split; [contradiction|].
  destruct (parse_tokens _ _ _ _ _ Hg Hl tokens Et Hno input ts out El (eq_trans El Eo) Hts) as (syms' & w & HF' & Hw & Hend & Htm & Ep).
  assert (syms' = syms) as -> by (eapply nth_syms_det; eauto).
  assert (Htree : forall tr, parse_tree g (ap_name st) w tr <-> tree_ok g tr /\ root g tr = Some (SNon (ap_name st)) /\ yield tr = syms).
  { intros tr. unfold parse_tree. split; intros (H1 & H2 & H3); (split; [exact H1|split; [exact H2|]]); [|rewrite H3; exact Hw].
    unfold symbols in *. rewrite Hw in H3. clear -H3. revert H3. generalize (yield tr). induction syms as [|x l IH]; intros [|y l'] E; try discriminate; auto.
    injection E as -> E. f_equal. auto. }
  rewrite Ep. split.
  - intros ps. rewrite (C30_accepts_iff _ _ _ Hg Hst Hp Hfr _ _ Ht _ _ ps Hend). split.
    + intros (tr & j & Htr & Hm & E). apply Htree in Htr as (H1 & H2 & H3). split; auto. exists tr, j. auto.
    + intros (_ & tr & j & H1 & H2 & H3 & Hm & E). exists tr, j. split; [apply Htree; auto|auto].
  - intros Hcl _ tr H1 H2 H3. destruct (C30_completeness_partial _ _ _ Hg Hst Hp Hfr _ _ Ht Hcl _ _ Hend) as [Hcomp _].
    apply Hcomp, Htree. auto.
Qed.
Print Assumptions C36_accepts_iff_partial.

(** ** Counterexamples *)

Definition no_regex (r : str) : option hir := None.
(** Everything about a witness: the grammar and the parser built from it, the same for every hash
    function with which it can be built. *)
Definition built (ast : list aprod) (g : grammar) (l : lalr) : Prop :=
  file_ast ast /\ grammar_from_ast ast = Ok g /\ lalr_new no_regex ehash g = Ok l /\
  (forall hash l', lalr_new no_regex hash g = Ok l' -> l' = l) /\ no_clash g.

Lemma built_any ast g l : file_ast ast -> grammar_from_ast ast = Ok g -> lalr_new no_regex ehash g = Ok l -> no_clash g -> built ast g l.
Proof.
  intros Hf Hg Hl Hn. repeat (split; auto). intros hash l' H. destruct (grammar_from_ast_ok _ _ Hg) as (s & _ & W & _).
  destruct (new_parts _ _ _ _ Hl) as (_ & HL & Ht). unfold lalr_new in H. rewrite HL in H. cbn [bind] in H.
  apply bind_ok in H as (t & Ht' & H). injection H as <-. rewrite (make_tables_any hash ehash g _ t W ehash_free Ht') in Ht.
  injection Ht as Ht. unfold lalr_new in Hl. rewrite HL in Hl. cbn [bind] in Hl.
  rewrite (make_tables_any hash ehash g _ t W ehash_free Ht') in Hl. cbn [bind] in Hl. congruence.
Qed.

(** Grammars whose terminals are single letters. *)
Definition letters (g : grammar) : Prop := NoDup (lex_syms g) /\ forall x, In x (lex_syms g) -> exists c, x = SStr [c].
Lemma reference_letters parse g : letters g -> forall input, Forall (fun c => In (SStr [c]) (lex_syms g)) input ->
  reference parse g input (map (fun c => SStr [c]) input) [].
Proof.
  intros [Hnd Hlt] input. unfold reference. generalize 0 as pos. induction input as [|c s IH]; intros pos HF.
  - exists []. split; constructor.
  - inversion HF as [|? ? Hc HF']; subst. destruct (IH (S pos) HF') as (ts & HM & Hs).
    apply In_nth_error in Hc as [i Hi]. exists ((pos, i, [c]) :: ts). split; [|constructor; auto].
    change (c :: s) with ([c] ++ s). apply MTok; [|rewrite Nat.add_1_r; exact HM]. split; [discriminate|]. split.
    + split; [exists (SStr [c]); split; [exact Hi|reflexivity]|]. intros j x Hj Hx Hl.
      destruct (Hlt x) as [d ->]; [eauto using nth_error_In|]. simpl in Hl. injection Hl as ->.
      assert (j = i); [|lia]. rewrite NoDup_nth_error in Hnd. apply Hnd; [apply nth_error_Some; congruence|congruence].
    + intros u v j _ ((x & Hx & Hl) & _). destruct (Hlt x) as [d ->]; [eauto using nth_error_In|]. simpl in Hl. subst u. auto.
Qed.

Fixpoint nodup_b (l : list sym) : bool :=
  match l with [] => true | x :: l => negb (existsb (eqb x) l) && nodup_b l end.
Definition letters_b (g : grammar) : bool :=
  forallb (fun x => match x with SStr [_] => true | _ => false end) (lex_syms g) && nodup_b (lex_syms g).
Lemma letters_b_ok g : letters_b g = true -> letters g.
Proof.
  unfold letters_b, letters. intros H. apply andb_true_iff in H as [H1 H2]. split.
  - revert H2. clear. induction (lex_syms g) as [|x l IH]; intros H; [constructor|].
    simpl in H. apply andb_true_iff in H as [Hx H]. constructor; auto. intros Hi. apply negb_true_iff in Hx. rewrite <- not_true_iff_false in Hx. apply Hx. apply existsb_exists.
    exists x. split; auto. apply eqb_refl.
  - rewrite forallb_forall in H1. intros x Hx. specialize (H1 x Hx). destruct x as [[|c [|? ?]]| | | |]; try discriminate H1; eauto.
Qed.
Lemma letters_no_clash g : letters g -> no_clash g.
Proof.
  intros [_ H] s [_ Hr]. destruct (H (SReg s)) as [c Hc]; [|discriminate]. apply filter_In. auto.
Qed.

Definition ident_start_b (c : N) : bool := ((c =? 95) || (65 <=? c) && (c <=? 90) || (97 <=? c) && (c <=? 122))%N.
Lemma ident_1 c : ident_start_b c = true -> ident [c].
Proof.
  unfold ident_start_b. intros H. split; [|constructor]. unfold ident_start.
  repeat (apply orb_true_iff in H as [H|H]); [apply N.eqb_eq in H|apply andb_true_iff in H as [H1 H2]; apply N.leb_le in H1, H2..]; lia.
Qed.
Definition ident1_b (s : str) : bool := match s with [c] => ident_start_b c | _ => false end.
Definition sym1_b (x : isym) : bool := match x with IStr _ => true | INon n => ident1_b n | _ => false end.
Definition file_b (ast : list aprod) : bool :=
  match ast with [] => false | _ =>
  forallb (fun p => ident1_b (ap_name p) &&
    forallb (fun b => match ab_syms b with [] => false | _ => forallb sym1_b (ab_syms b) end) (ap_bodies p)) ast end.
Lemma ident1_ok s : ident1_b s = true -> ident s.
Proof. destruct s as [|c [|]]; try discriminate. apply ident_1. Qed.
Lemma file_b_ok ast : file_b ast = true -> file_ast ast.
Proof.
  intros H. assert (H1 : ast <> []) by (destruct ast; [discriminate|congruence]). split; auto.
  assert (H2 : forallb (fun p => ident1_b (ap_name p) &&
    forallb (fun b => match ab_syms b with [] => false | _ => forallb sym1_b (ab_syms b) end) (ap_bodies p)) ast = true)
    by (destruct ast; [congruence|exact H]).
  rewrite forallb_forall in H2. intros p Hp. specialize (H2 p Hp). apply andb_true_iff in H2 as [H2 H3].
  split; [apply ident1_ok, H2|]. rewrite forallb_forall in H3. intros b Hb. specialize (H3 b Hb).
  destruct (ab_syms b) as [|x l]; [discriminate|]. split; [discriminate|]. rewrite forallb_forall in H3. apply Forall_forall.
  intros y Hy. specialize (H3 y Hy). destruct y; try discriminate; simpl; auto. apply ident1_ok, H3.
Qed.
Local Ltac file_ok := apply file_b_ok; compute_ok.

Local Ltac lwitness w Eg El :=
  destruct (grammar_from_ast w) as [g| |] eqn:Eg; [|vm_compute in Eg; discriminate Eg..];
  destruct (lalr_new no_regex ehash g) as [l| |] eqn:El; [|vm_compute in Eg; injection Eg as <-; vm_compute in El; discriminate El..].
Local Ltac lopen Eg El := vm_compute in Eg; injection Eg as <-; vm_compute in El; injection El as <-.

(** It is false in general, for texts the reference reads completely: a sentence is rejected, and
    on another the parser does not stop. *)
Theorem C36_end_to_end_refuted :
  (exists ast g l input syms, built ast g l /\ ascii input /\ reference no_regex g input syms [] /\
     (forall st, find ap_start ast = Some st -> derives g [SNon (ap_name st)] syms) /\
     lalr_parse l input = Panic PInvalidToken) /\
  (exists ast g l input syms, built ast g l /\ ascii input /\ reference no_regex g input syms [] /\
     lalr_parse l input = Diverge).
Proof.
  split.
  - exists w28. lwitness w28 Eg El. exists g, l, [117; 99; 100; 112]%N, [SStr [117]; SStr [99]; SStr [100]; SStr [112]]%N.
    assert (HL : letters g) by (apply letters_b_ok; vm_compute in Eg; injection Eg as <-; compute_ok).
    split; [apply built_any; auto using letters_no_clash; file_ok|]. split; [repeat constructor|].
    split; [apply (reference_letters _ _ HL [117; 99; 100; 112]%N); vm_compute in Eg; injection Eg as <-; vm_compute; repeat (apply Forall_cons || apply Forall_nil); auto 20|].
    lopen Eg El. split; [|compute_ok]. intros s Hs. vm_compute in Hs. injection Hs as <-. cbn [ap_name].
    set (tr := Node 1 [Leaf (SStr [117]%N); Node 4 [Leaf (SStr [99]%N); Node 6 [Leaf (SStr [100]%N)]]; Leaf (SStr [112]%N)]).
    match goal with |- derives ?g [SNon ?n] _ => assert (H : parse_tree_b g n [7; 1; 2; 4] tr = true) by compute_ok end.
    apply parse_tree_b_ok in H as (Ho & Hr & Hy). pose proof (tree_derives _ _ _ Ho Hr) as Hd. exact Hd.
  - exists w31. lwitness w31 Eg El. exists g, l, [117; 99; 100; 112]%N, [SStr [117]; SStr [99]; SStr [100]; SStr [112]]%N.
    assert (HL : letters g) by (apply letters_b_ok; vm_compute in Eg; injection Eg as <-; compute_ok).
    split; [apply built_any; auto using letters_no_clash; file_ok|]. split; [repeat constructor|].
    split; [apply (reference_letters _ _ HL [117; 99; 100; 112]%N); vm_compute in Eg; injection Eg as <-; vm_compute; repeat (apply Forall_cons || apply Forall_nil); auto 20|].
    lopen Eg El. compute_ok.
Qed.
Print Assumptions C36_end_to_end_refuted.

Lemma layout_chars pos s ts : Layout pos s ts [] -> forall c, In c s -> white c \/ exists p u, In (p, u) ts /\ In c u.
Proof.
  intros H. remember [] as r eqn:Er. induction H as [pos r|pos u v ts r Hu _ IH|pos c v ts r Hc _ IH]; subst; intros x Hx.
  - destruct Hx.
  - apply in_app_or in Hx as [Hx|Hx]; [right; exists pos, u; split; [left|]; auto|].
    destruct (IH eq_refl x Hx) as [?|(p & u' & H1 & H2)]; [auto|right; exists p, u'; split; [right|]; auto].
  - destruct Hx as [<-|Hx]; auto.
Qed.

(** Texts with characters no symbol can read are accepted: "x!" as an expression. *)
Theorem C36_rejects_garbage_refuted :
  exists ast g l input ps, built ast g l /\ ascii input /\ closed g (l_tables l) /\
    lalr_parse l input = Ok ps /\ forall toks, ~ reading no_regex g input toks [].
Proof.
  exists w_expr. lwitness w_expr Eg El. eexists g, l, [120; 33]%N, _.
  assert (HL : letters g) by (apply letters_b_ok; vm_compute in Eg; injection Eg as <-; compute_ok).
  split; [apply built_any; auto using letters_no_clash; file_ok|]. split; [repeat constructor|]. lopen Eg El.
  split; [apply closed_b_ok; compute_ok|]. split; [compute_ok|].
  intros toks [Hlay Hin]. destruct (layout_chars _ _ _ Hlay 33%N) as [[H|H]|(p & u & Hu & Hc)]; [right; left; auto|discriminate..|].
  apply in_map_iff in Hu as ([[p' x] u'] & E & Hx). injection E as -> ->. apply Hin in Hx as [Hx Hl].
  cbn in Hx. destruct Hx as [<-|[<-|[]]]; simpl in Hl; subst u; destruct Hc as [H|[]]; discriminate.
Qed.
Print Assumptions C36_rejects_garbage_refuted.

(** Meeting the hypotheses of both theorems. *)
Example C36_nonvacuous : exists g l hs, built w_expr g l /\ closed g (l_tables l) /\
  Forall2 (fun x h => sym_hir no_regex x = Some h) (lex_syms g) hs /\ split_refines hs /\ Forall productive hs /\
  (forall a b, [120; 43; 120]%N = a ++ b -> b <> [] -> begins no_regex g b -> exists i, is_sym no_regex g b i) /\
  exists ps, lalr_parse l [120; 43; 120]%N = Ok ps.
Proof.
  lwitness w_expr Eg El. exists g, l, [lit_hir [43]; lit_hir [120]]%N.
  assert (HL : letters g) by (apply letters_b_ok; vm_compute in Eg; injection Eg as <-; compute_ok).
  split; [apply built_any; auto using letters_no_clash; file_ok|]. lopen Eg El.
  split; [apply closed_b_ok; compute_ok|]. split; [repeat constructor|]. split; [|split; [|split]].
  - apply split_b_ok. compute_ok.
  - repeat constructor; intros x Hx; apply sub_lit_inv in Hx as ->; exact I.
  - intros a b E Hb (x & v & Hx & Hl). cbn in Hx.
    assert (Hb1 : b = [43]%N \/ b = [120]%N).
    { destruct b as [|c b]; [congruence|]. destruct Hx as [<-|[<-|[]]]; simpl in Hl; injection Hl as -> Hl; destruct b; discriminate Hl || auto. }
    destruct Hb1 as [-> | ->]; [exists 0|exists 1]; (split; [eexists; split; reflexivity|]).
    + intros j x' Hj. lia.
    + intros [|j] x' Hj Hx' Hl'; [|lia]. cbn in Hx'. injection Hx' as <-. discriminate.
  - eexists. compute_ok.
Qed.
