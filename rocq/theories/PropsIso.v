(** C59: the order of rules and alternatives and the names of non-terminals do not matter. *)
From Coq Require Import Permutation.
From Verif Require Import Base IsoSpec Regex Nfa Dfa Lex Grammar GrammarSpec GrammarProofs First Item ItemSpec ItemPlain Table MergeProofs
  TableSpec TableProofs TableFacts LexGrammar LexGrammarProofs Parse Lalr Iso IsoParse IsoGrammar Witness GrammarCheck PropsTable.

Local Ltac compute_ok := vm_compute; reflexivity.

(** The lexer is the same, for any grammar and whatever building it ends in. *)
Theorem C59_lexer :
  forall r ast ast' g g', same_rules r ast ast' -> grammar_from_ast ast = Ok g -> grammar_from_ast ast' = Ok g' ->
  forall parse_regex, from_grammar parse_regex g' = from_grammar parse_regex g.
Proof. intros r ast ast' g g' HR Hg Hg' parse. exact (same_lexer r ast ast' g g' parse HR Hg Hg'). Qed.
Print Assumptions C59_lexer.

(** Tables are built for both grammars or for neither, hash collisions apart. *)
Theorem C59_tables :
  forall r ast ast' g g', same_rules r ast ast' -> grammar_from_ast ast = Ok g -> grammar_from_ast ast' = Ok g' -> eps_free g ->
  forall hash hash', (forall l, items g = Ok l -> collision_free hash l) -> (forall l, items g' = Ok l -> collision_free hash' l) ->
  (exists t, make_tables hash g = Ok t) <-> (exists t', make_tables hash' g' = Ok t').
Proof.
  intros r ast ast' g g' HR Hg Hg' He hash hash' Hc Hc'.
  pose proof (same_eps_free _ ast ast' g g' (same_respelt _ _ _ HR) Hg Hg' He) as He'.
  destruct (same_rules_iso r ast ast' g g' HR Hg Hg') as (f & f' & P & P' & K & K' & HI & _).
  pose proof (iso_sym _ _ _ _ _ _ _ _ HI) as HI'.
  destruct (prods_rules _ _ Hg) as (st & _ & W & _). destruct (prods_rules _ _ Hg') as (st' & _ & W' & _).
  rewrite (C27_tables_built_iff _ _ Hg He hash), (C27_tables_built_iff _ _ Hg' He' hash'). split.
  - intros (l & El & _ & HO). destruct (iso_items _ _ _ _ _ _ _ _ HI _ _ W W' He He' l El) as (l' & El').
    exists l'. split; auto. split; auto. exact (iso_one_each _ _ _ _ _ _ _ _ HI HO).
  - intros (l & El & _ & HO). destruct (iso_items _ _ _ _ _ _ _ _ HI' _ _ W' W He' He l El) as (l' & El').
    exists l'. split; auto. split; auto. exact (iso_one_each _ _ _ _ _ _ _ _ HI' HO).
Qed.
Print Assumptions C59_tables.

(** The parsers do the same on every sequence of tokens, whatever it ends in, up to the numbers
    of the productions; and on every text the results are the same. *)
Theorem C59_parser :
  forall r ast ast' g g', same_rules r ast ast' -> grammar_from_ast ast = Ok g -> grammar_from_ast ast' = Ok g' -> eps_free g ->
  exists P : nat -> nat,
    (forall p q, P p = P q -> p = q) /\
    (forall p pr, nth_error (g_prods g) p = Some pr -> exists pr', nth_error (g_prods g') (P p) = Some pr' /\
       p_name pr' = r (p_name pr) /\ p_syms pr' = map (rsym r) (p_syms pr)) /\
    (forall hash hash' t t', make_tables hash g = Ok t -> make_tables hash' g' = Ok t' ->
       forall tokens, (forall k, In k tokens -> exists x, nth_error (g_tokens g) k = Some x /\ terminal x) ->
       parse_impl g' t' tokens = rmap (map P) (parse_impl g t tokens)) /\
    (forall parse_regex hash hash' l l', lalr_new parse_regex hash g = Ok l -> lalr_new parse_regex hash' g' = Ok l' ->
       forall input, lalr_parse l' input = rmap (map P) (lalr_parse l input)).
Proof.
  intros r ast ast' g g' HR Hg Hg' He.
  pose proof (same_eps_free _ ast ast' g g' (same_respelt _ _ _ HR) Hg Hg' He) as He'.
  destruct (same_rules_iso r ast ast' g g' HR Hg Hg') as (f & f' & P & P' & K & K' & HI & Hf & HK).
  destruct (prods_rules _ _ Hg) as (st & _ & W & _). destruct (prods_rules _ _ Hg') as (st' & _ & W' & _).
  assert (HP : forall hash hash' t t', make_tables hash g = Ok t -> make_tables hash' g' = Ok t' ->
       forall tokens, (forall k, In k tokens -> exists x, nth_error (g_tokens g) k = Some x /\ terminal x) ->
       parse_impl g' t' tokens = rmap (map P) (parse_impl g t tokens)).
  { intros hash hash' t t' Ht Ht' tokens Hk.
    destruct (make_tables_built _ _ _ _ W Ht) as (lr0 & m & B). destruct (make_tables_built _ _ _ _ W' Ht') as (lr0' & m' & B').
    rewrite <- (iso_parse _ _ _ _ _ _ _ _ HI _ _ W W' He He' _ _ _ _ _ _ _ _ B B' tokens). f_equal.
    rewrite <- (map_id tokens) at 1. apply map_ext_in. intros k Hin. destruct (Hk k Hin) as (x & Hx & Hxt). symmetry. apply (HK k x Hx Hxt). }
  exists P. split; [|split; [|split; [exact HP|]]].
  - intros p q E. rewrite <- (bij_l _ _ (is_P _ _ _ _ _ _ _ _ HI) p), E. apply (bij_l _ _ (is_P _ _ _ _ _ _ _ _ HI)).
  - intros p pr Hp. destruct (fw_prod _ _ _ _ _ _ _ _ HI p pr Hp) as (pr' & Hp' & En & Es). exists pr'. split; auto.
    specialize (Hf p pr Hp). unfold rrule, xrule, shape in Hf. cbn [fst snd] in Hf. injection Hf as Hf1 Hf2. split; congruence.
  - intros parse hash hash' l l' Hl Hl' input. unfold lalr_new in Hl, Hl'.
    rewrite (same_lexer r ast ast' g g' parse HR Hg Hg') in Hl'.
    destruct (from_grammar parse g) as [L| |] eqn:EL; cbn [bind] in Hl, Hl'; try discriminate.
    destruct (make_tables hash g) as [t| |] eqn:Et; cbn [bind] in Hl; try discriminate.
    destruct (make_tables hash' g') as [t'| |] eqn:Et'; cbn [bind] in Hl'; try discriminate.
    injection Hl as <-. injection Hl' as <-. unfold lalr_parse. cbn [l_lexer l_grammar l_tables].
    destruct (lex L input) as [ts| |]; cbn [bind]; [|reflexivity..].
    destruct (convert_tokens L ts) as [conv| |] eqn:Ec; cbn [bind]; [|reflexivity..].
    apply (HP _ _ _ _ Et Et'). intros k Hk.
    destruct (convert_characterised parse ast g L Hg EL ts) as [H1 H2].
    assert (Hdec : (forall tk, In tk ts -> In (SStr (tk_name tk)) (g_tokens g) \/ In (SReg (tk_name tk)) (g_tokens g)) \/
              (exists tk, In tk ts /\ ~ In (SStr (tk_name tk)) (g_tokens g) /\ ~ In (SReg (tk_name tk)) (g_tokens g))).
    { clear. induction ts as [|tk ts [IH|(u & Hu & IH)]].
      - left. intros tk [].
      - destruct (in_dec ord_dec (SStr (tk_name tk)) (g_tokens g)) as [Ha|Ha].
        + left. intros u [<-|Hu]; auto.
        + destruct (in_dec ord_dec (SReg (tk_name tk)) (g_tokens g)) as [Hb|Hb].
          * left. intros u [<-|Hu]; auto.
          * right. exists tk. split; [left; reflexivity|auto].
      - right. exists u. split; [right; exact Hu|exact IH]. }
    destruct Hdec as [Hd|Hd]; [|rewrite (H2 Hd) in Ec; discriminate].
    destruct (H1 Hd) as (c & Ec' & _ & Hidx). rewrite Ec in Ec'. injection Ec' as ->.
    rewrite map_app in Hk. apply in_app_or in Hk as [Hk|[<-|[]]].
    + apply in_map_iff in Hk as ((tk & k0) & Ek & Hin). cbn [snd] in Ek. subst k0. unfold get_token in Hidx.
      destruct (Hidx _ _ Hin) as [Hx|[Hx _]]; eexists; (split; [exact Hx|]); intros n; discriminate.
    + exists SEof. destruct (wg_tokens _ _ W) as (lt & -> & _). split; [reflexivity|]. intros n. discriminate.
Qed.
Print Assumptions C59_parser.

(** In particular for the order alone. *)
Theorem C59_order :
  forall ast ast' g g' s s', Permutation (ast_rules ast) (ast_rules ast') ->
  find ap_start ast = Some s -> find ap_start ast' = Some s' -> ap_name s' = ap_name s ->
  grammar_from_ast ast = Ok g -> grammar_from_ast ast' = Ok g' -> eps_free g ->
  forall parse_regex hash hash' l l', lalr_new parse_regex hash g = Ok l -> lalr_new parse_regex hash' g' = Ok l' ->
  forall input, (exists ps, lalr_parse l input = Ok ps) <-> (exists ps, lalr_parse l' input = Ok ps).
Proof.
  intros ast ast' g g' s s' HP Hs Hs' En Hg Hg' He parse hash hash' l l' Hl Hl' input.
  destruct (C59_parser _ _ _ _ _ (perm_same _ _ _ _ HP Hs Hs' En) Hg Hg' He) as (P & _ & _ & _ & H).
  rewrite (H _ _ _ _ _ Hl Hl' input). destruct (lalr_parse l input); simpl; split; intros [ps E]; try discriminate; eauto.
Qed.
Print Assumptions C59_order.

(** What does depend on the order: how building fails, and which of several rules marked as the
    start is the start. *)
Definition w59_div : list aprod := [PS 83 [[V 90; V 65]]; P 90 [[T 122]]; P 65 [[V 65; T 97]; [V 85; T 98]]].
Definition w59_panic : list aprod := [PS 83 [[V 90; V 65]]; P 90 [[T 122]]; P 65 [[V 85; T 98]; [V 65; T 97]]].
Theorem C59_failure_refuted :
  exists ast ast' g g', same_rules (fun n => n) ast ast' /\ grammar_from_ast ast = Ok g /\ grammar_from_ast ast' = Ok g' /\ plain g /\
    make_tables ehash g = Diverge /\ make_tables ehash g' = Panic PUnwrapNone.
Proof.
  exists w59_div, w59_panic. eexists _, _. split.
  - eapply perm_same; [|reflexivity..]. cbn. do 3 constructor.
  - split; [compute_ok|]. split; [compute_ok|]. split; [split; [apply eps_free_b_ok|apply eof_free_b_ok]; reflexivity|].
    split; compute_ok.
Qed.
Print Assumptions C59_failure_refuted.

Theorem C59_start_refuted :
  exists ast ast' g g' t t' tokens ps, Permutation ast ast' /\ grammar_from_ast ast = Ok g /\ grammar_from_ast ast' = Ok g' /\ plain g /\
    make_tables ehash g = Ok t /\ make_tables ehash g' = Ok t' /\
    parse_impl g t tokens = Ok ps /\ parse_impl g' t' tokens = Panic PInvalidToken.
Proof.
  exists [PS 83 [[T 97]]; PS 82 [[T 98]]], [PS 82 [[T 98]]; PS 83 [[T 97]]]. eexists _, _, _, _, [1; 0], _.
  split; [constructor|]. split; [compute_ok|]. split; [compute_ok|]. split; [split; [apply eps_free_b_ok|apply eof_free_b_ok]; reflexivity|].
  split; [compute_ok|]. split; [compute_ok|]. split; compute_ok.
Qed.
Print Assumptions C59_start_refuted.

(** The hypotheses are met: [w_cc] with its rules and alternatives in another order and renamed;
    the numbers of the productions differ. *)
Definition w59 : list aprod := [P 88 [[T 100]; [T 99; V 88]]; PS 89 [[V 88; V 88]]].
Definition r59 (n : str) : str :=
  if eqb n [67]%N then [88]%N else if eqb n [83]%N then [89]%N else if eqb n [83; 39]%N then [89; 39]%N else n.
Example C59_nonvacuous : exists g g' l l', same_rules r59 w_cc w59 /\
  grammar_from_ast w_cc = Ok g /\ grammar_from_ast w59 = Ok g' /\ plain g /\
  lalr_new (fun _ => None) ehash g = Ok l /\ lalr_new (fun _ => None) ehash g' = Ok l' /\
  lalr_parse l [99; 100; 100]%N = Ok [3; 2; 3; 1] /\ lalr_parse l' [99; 100; 100]%N = Ok [1; 2; 1; 3] /\
  lalr_parse l [99; 100]%N = Panic PInvalidToken /\ lalr_parse l' [99; 100]%N = Panic PInvalidToken.
Proof.
  destruct (grammar_from_ast w_cc) as [g| |] eqn:Eg; [|vm_compute in Eg; discriminate Eg..].
  destruct (grammar_from_ast w59) as [g'| |] eqn:Eg'; [|vm_compute in Eg'; discriminate Eg'..].
  destruct (lalr_new (fun _ => None) ehash g) as [l| |] eqn:El; [|vm_compute in Eg; injection Eg as <-; vm_compute in El; discriminate El..].
  destruct (lalr_new (fun _ => None) ehash g') as [l'| |] eqn:El'; [|vm_compute in Eg'; injection Eg' as <-; vm_compute in El'; discriminate El'..].
  exists g, g', l, l'. split; [|split; [auto|split; [auto|]]].
  - constructor.
    + exact (Permutation_rev (map (rrule r59) (ast_rules w_cc))).
    + do 2 eexists. split; [reflexivity|]. split; [reflexivity|]. split; [reflexivity|]. split; [reflexivity|].
      intros n n' Hn Hn'. simpl in Hn, Hn'.
      repeat (destruct Hn as [<-|Hn]; [repeat (destruct Hn' as [<-|Hn']; [try reflexivity; discriminate|]); destruct Hn'|]). destruct Hn.
  - vm_compute in Eg. injection Eg as <-. vm_compute in Eg'. injection Eg' as <-.
    split; [split; [apply eps_free_b_ok|apply eof_free_b_ok]; reflexivity|]. split; [auto|]. split; [auto|].
    vm_compute in El. injection El as <-. vm_compute in El'. injection El' as <-.
    repeat split; compute_ok.
Qed.
