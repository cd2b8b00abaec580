(** C62: rules the start symbol cannot use change nothing but the tokens. *)
From Coq Require Import Permutation.
From Verif Require Import Base IsoSpec UselessSpec Regex Nfa Dfa Lex Grammar GrammarSpec GrammarProofs First Item ItemSpec ItemPlain Table MergeProofs
  TableSpec TableProofs TableFacts Auto LexGrammar LexGrammarProofs Parse ParseSpec Lalr Iso IsoParse IsoGrammar Useless UselessParse UselessGrammar
  Witness GrammarCheck PropsTable.

Local Ltac compute_ok := vm_compute; reflexivity.

(** Tables are built with them or without them, hash collisions apart. *)
Theorem C62_tables :
  forall ast ast' extra g g', adds_useless ast ast' extra -> grammar_from_ast ast = Ok g -> grammar_from_ast ast' = Ok g' -> eps_free g' ->
  forall hash hash', (forall l, items g = Ok l -> collision_free hash l) -> (forall l, items g' = Ok l -> collision_free hash' l) ->
  (exists t, make_tables hash g = Ok t) <-> (exists t', make_tables hash' g' = Ok t').
Proof.
  intros ast ast' extra g g' HU Hg Hg' He' hash hash' Hc Hc'.
  pose proof (adds_eps_free _ _ _ _ _ HU Hg Hg' He') as He.
  destruct (adds_part _ _ _ _ _ HU Hg Hg') as (P & P' & K & K' & HI & _).
  pose proof (part_sym _ _ _ _ _ _ HI) as HI'.
  destruct (prods_rules _ _ Hg) as (st & _ & W & _). destruct (prods_rules _ _ Hg') as (st' & _ & W' & _).
  rewrite (C27_tables_built_iff _ _ Hg He hash), (C27_tables_built_iff _ _ Hg' He' hash'). split.
  - intros (l & El & _ & HO). destruct (part_items _ _ _ _ _ _ HI _ _ W W' He He' l El) as (l' & El').
    exists l'. split; auto. split; auto. exact (part_one_each _ _ _ _ _ _ HI HO).
  - intros (l & El & _ & HO). destruct (part_items _ _ _ _ _ _ HI' _ _ W' W He' He l El) as (l' & El').
    exists l'. split; auto. split; auto. exact (part_one_each _ _ _ _ _ _ HI' HO).
Qed.
Print Assumptions C62_tables.

(** The parsers do the same, whatever it ends in, on sequences of the same tokens. *)
Definition same_symbols (g g' : grammar) (tokens tokens' : list nat) : Prop :=
  Forall2 (fun k k' => exists x, nth_error (g_tokens g) k = Some x /\ nth_error (g_tokens g') k' = Some x) tokens tokens'.

Lemma plain_tok ast g : grammar_from_ast ast = Ok g -> eof_free g -> forall k x, nth_error (g_tokens g) k = Some x -> tok g k x.
Proof.
  intros Hg Hf k x Hk. destruct (prods_rules _ _ Hg) as (st & _ & W & _). destruct (wg_tokens _ _ W) as (l & E & Hs & Hl).
  apply (tok_split g l k x E (ssorted_NoDup _ Hs)). rewrite E in Hk.
  destruct k as [|j]; [left; simpl in Hk; split; congruence|right]. exists j. split; auto. split; auto.
  intros ->. simpl in Hk. apply nth_error_In in Hk. destruct (proj1 (Hl _) Hk) as (p & Hp & Hx). exact (Hf p Hp Hx).
Qed.

Lemma c62_parser :
  forall ast ast' extra g g', adds_useless ast ast' extra -> grammar_from_ast ast = Ok g -> grammar_from_ast ast' = Ok g' -> plain g' ->
  exists P : nat -> nat,
    (forall p q, P p = P q -> p = q) /\
    (forall p pr, nth_error (g_prods g) p = Some pr -> exists pr', nth_error (g_prods g') (P p) = Some pr' /\
       p_name pr' = p_name pr /\ p_syms pr' = p_syms pr) /\
    (forall hash hash' t t', make_tables hash g = Ok t -> make_tables hash' g' = Ok t' ->
       forall tokens w tokens', ended tokens w -> same_symbols g g' tokens tokens' ->
       parse_impl g' t' tokens' = rmap (map P) (parse_impl g t tokens)) /\
    (no_new_tokens ast extra ->
     forall parse_regex hash hash' l l', lalr_new parse_regex hash g = Ok l -> lalr_new parse_regex hash' g' = Ok l' ->
       forall input, lalr_parse l' input = rmap (map P) (lalr_parse l input)).
Proof.
  intros ast ast' extra g g' HU Hg Hg' [He' Hf'].
  destruct (adds_plain _ _ _ _ _ HU Hg Hg' (conj He' Hf')) as [He Hf].
  destruct (adds_part _ _ _ _ _ HU Hg Hg') as (P & P' & K & K' & HI & HP & HK).
  destruct (grammar_from_ast_ok _ _ Hg) as (st & _ & W & Hst & _). destruct (grammar_from_ast_ok _ _ Hg') as (st' & _ & W' & Hst' & _).
  assert (Hrun : forall hash hash' t t', make_tables hash g = Ok t -> make_tables hash' g' = Ok t' ->
    forall tokens w, ended tokens w -> parse_impl g' t' (map K tokens) = rmap (map P) (parse_impl g t tokens)).
  { intros hash hash' t t' Ht Ht' tokens w Hend.
    destruct (make_tables_built _ _ _ _ W Ht) as (lr0 & m & B). destruct (make_tables_built _ _ _ _ W' Ht') as (lr0' & m' & B').
    exact (part_parse _ _ _ _ _ _ HI _ _ W W' He He' _ _ _ _ _ _ _ _ B B' Hf Hf' (tables_auto g _ W Hst hash t Ht)
      (tables_auto g' _ W' Hst' hash' t' Ht') tokens w Hend). }
  exists P. split; [|split; [exact HP|split]].
  - intros p q E. rewrite <- (bij_l _ _ (pt_P _ _ _ _ _ _ HI) p), E. apply (bij_l _ _ (pt_P _ _ _ _ _ _ HI)).
  - intros hash hash' t t' Ht Ht' tokens w tokens' Hend Hs.
    replace tokens' with (map K tokens); [exact (Hrun _ _ _ _ Ht Ht' tokens w Hend)|].
    clear -Hs HK Hg Hg' Hf Hf'. induction Hs as [|k k' l l' (x & Hk & Hk') _ IH]; [reflexivity|]. cbn [map]. rewrite IH. f_equal.
    eapply (tok_first g'); [apply HK|]; eapply plain_tok; eauto.
  - intros Hn parse hash hash' l l' Hl Hl' input. unfold lalr_new in Hl, Hl'.
    rewrite (adds_lexer _ _ _ _ _ HU Hg Hg' Hn Hf' K parse HK) in Hl'.
    destruct (from_grammar parse g) as [L| |] eqn:EL; cbn [bind rmap] in Hl, Hl'; try discriminate.
    destruct (make_tables hash g) as [t| |] eqn:Et; cbn [bind] in Hl; try discriminate.
    destruct (make_tables hash' g') as [t'| |] eqn:Et'; cbn [bind] in Hl'; try discriminate.
    injection Hl as <-. injection Hl' as <-. unfold lalr_parse. cbn [l_lexer l_grammar l_tables].
    rewrite lex_map. destruct (lex L input) as [ts| |]; cbn [bind]; [|reflexivity..].
    rewrite (convert_map K L ts (pt_K0 _ _ _ _ _ _ HI)).
    destruct (convert_tokens L ts) as [conv| |] eqn:Ec; cbn [bind rmap]; [|reflexivity..].
    rewrite map_map. cbn [snd]. rewrite <- (map_map snd K).
    destruct (convert_characterised parse ast g L Hg EL ts) as [H1 H2].
    assert (Hdec : (forall tk, In tk ts -> In (SStr (tk_name tk)) (g_tokens g) \/ In (SReg (tk_name tk)) (g_tokens g)) \/
              (exists tk, In tk ts /\ ~ In (SStr (tk_name tk)) (g_tokens g) /\ ~ In (SReg (tk_name tk)) (g_tokens g))).
    { clear. induction ts as [|tk ts [IH|(u & Hu & IH)]].
      - left. intros tk [].
      - destruct (in_dec ord_dec (SStr (tk_name tk)) (g_tokens g)) as [Ha|Ha].
        + left. intros u [<-|Hu]; auto.
        + destruct (in_dec ord_dec (SReg (tk_name tk)) (g_tokens g)) as [Hb|Hb].
          * left. intros u [<-|Hu]; auto.
          * right. exists tk. split; [left; reflexivity|auto].
      - right. exists u. split; [right; exact Hu|exact IH]. }
    destruct Hdec as [Hd|Hd]; [|rewrite (H2 Hd) in Ec; discriminate].
    destruct (H1 Hd) as (c & Ec' & _ & Hidx). rewrite Ec in Ec'. injection Ec' as ->.
    apply (Hrun _ _ _ _ Et Et' _ (map snd c)). split; [rewrite map_app; reflexivity|].
    intros Hin. apply in_map_iff in Hin as ((tk & k0) & Ek & Hin). cbn [snd] in Ek. subst k0. unfold get_token in Hidx.
    destruct (wg_tokens _ _ W) as (lt & Elt & _). rewrite Elt in Hidx.
    destruct (Hidx _ _ Hin) as [Hx|[Hx _]]; discriminate.
Qed.

Theorem C62_parser :
  forall ast ast' extra g g', adds_useless ast ast' extra -> grammar_from_ast ast = Ok g -> grammar_from_ast ast' = Ok g' -> plain g' ->
  exists P : nat -> nat,
    (forall p q, P p = P q -> p = q) /\
    (forall p pr, nth_error (g_prods g) p = Some pr -> exists pr', nth_error (g_prods g') (P p) = Some pr' /\
       p_name pr' = p_name pr /\ p_syms pr' = p_syms pr) /\
    (forall hash hash' t t', make_tables hash g = Ok t -> make_tables hash' g' = Ok t' ->
       forall tokens w tokens', ended tokens w -> same_symbols g g' tokens tokens' ->
       parse_impl g' t' tokens' = rmap (map P) (parse_impl g t tokens)).
Proof.
  intros ast ast' extra g g' HU Hg Hg' Hp. destruct (c62_parser _ _ _ _ _ HU Hg Hg' Hp) as (P & H1 & H2 & H3 & _). exists P. auto.
Qed.
Print Assumptions C62_parser.

(** And on texts, when the rules have no new tokens; missing: rules that have. *)
Theorem C62_text_partial :
  forall ast ast' extra g g', adds_useless ast ast' extra -> no_new_tokens ast extra ->
  grammar_from_ast ast = Ok g -> grammar_from_ast ast' = Ok g' -> plain g' ->
  exists P : nat -> nat,
    (forall p q, P p = P q -> p = q) /\
    (forall p pr, nth_error (g_prods g) p = Some pr -> exists pr', nth_error (g_prods g') (P p) = Some pr' /\
       p_name pr' = p_name pr /\ p_syms pr' = p_syms pr) /\
    (forall parse_regex hash hash' l l', lalr_new parse_regex hash g = Ok l -> lalr_new parse_regex hash' g' = Ok l' ->
       forall input, lalr_parse l' input = rmap (map P) (lalr_parse l input)).
Proof.
  intros ast ast' extra g g' HU Hn Hg Hg' Hp. destruct (c62_parser _ _ _ _ _ HU Hg Hg' Hp) as (P & H1 & H2 & _ & H4). exists P.
  split; [exact H1|split; [exact H2|exact (H4 Hn)]].
Qed.
Print Assumptions C62_text_partial.

(** With a new token it is false of texts: the literal of a rule that can never be used takes the
    lexeme from the regex of the rule that is. *)
Definition re62 (_ : str) : option hir := Some (HRep OneOrMore (HClass [(97, 122)]%N)).
Definition w62 : list aprod := [PS 83 [[IReg [119]%N]]].
Definition w62' : list aprod := [PS 83 [[IReg [119]%N]]; P 85 [[IStr [105; 102]%N]]].
Theorem C62_text_refuted :
  exists ast ast' extra g g' l l' input, adds_useless ast ast' extra /\ grammar_from_ast ast = Ok g /\ grammar_from_ast ast' = Ok g' /\ plain g' /\
    lalr_new re62 ehash g = Ok l /\ lalr_new re62 ehash g' = Ok l' /\
    (exists ps, lalr_parse l input = Ok ps) /\ lalr_parse l' input = Panic PInvalidToken.
Proof.
  exists w62, w62', [([85]%N, [Grammar.SStr [105; 102]%N])]. eexists _, _, _, _, [105; 102]%N. split.
  - constructor; [apply Permutation_refl|]. do 2 eexists. split; [reflexivity|]. split; [reflexivity|]. split; [reflexivity|].
    intros A b [E|[]] Hn. injection E as <- <-. cbn in Hn. inversion Hn as [|A b B _ Hin HB]; subst. destruct Hin as [E|[]]. injection E as <- <-.
    destruct HB as [HB|[]]; discriminate.
  - split; [compute_ok|]. split; [compute_ok|]. split; [split; [apply eps_free_b_ok|apply eof_free_b_ok]; reflexivity|].
    split; [compute_ok|]. split; [compute_ok|]. split; [eexists; compute_ok|compute_ok].
Qed.
Print Assumptions C62_text_refuted.

(** The hypotheses are met: [w_cc] with rules that are left-recursive and use names without rules,
    which in use would stop the tables from being built. *)
Definition x62 : list (str * list sym) := [([85]%N, [SNon [85]%N; Grammar.SStr [99]%N]); ([85]%N, [SNon [88]%N; SNon [67]%N])].
Definition w62_cc : list aprod := P 85 [[V 85; T 99]; [V 88; V 67]] :: w_cc.
Example C62_nonvacuous : exists g g' l l', adds_useless w_cc w62_cc x62 /\ no_new_tokens w_cc x62 /\
  grammar_from_ast w_cc = Ok g /\ grammar_from_ast w62_cc = Ok g' /\ plain g' /\
  lalr_new (fun _ => None) ehash g = Ok l /\ lalr_new (fun _ => None) ehash g' = Ok l' /\
  lalr_parse l [99; 100; 100]%N = Ok [3; 2; 3; 1] /\ lalr_parse l' [99; 100; 100]%N = Ok [5; 4; 5; 3] /\
  lalr_parse l [99; 100]%N = Panic PInvalidToken /\ lalr_parse l' [99; 100]%N = Panic PInvalidToken.
Proof.
  destruct (grammar_from_ast w_cc) as [g| |] eqn:Eg; [|vm_compute in Eg; discriminate Eg..].
  destruct (grammar_from_ast w62_cc) as [g'| |] eqn:Eg'; [|vm_compute in Eg'; discriminate Eg'..].
  destruct (lalr_new (fun _ => None) ehash g) as [l| |] eqn:El; [|vm_compute in Eg; injection Eg as <-; vm_compute in El; discriminate El..].
  destruct (lalr_new (fun _ => None) ehash g') as [l'| |] eqn:El'; [|vm_compute in Eg'; injection Eg' as <-; vm_compute in El'; discriminate El'..].
  exists g, g', l, l'. split; [|split; [|split; [auto|split; [auto|]]]].
  - constructor.
    + change (ast_rules w62_cc) with (x62 ++ ast_rules w_cc). apply Permutation_app_comm.
    + do 2 eexists. split; [reflexivity|]. split; [reflexivity|]. split; [reflexivity|].
      assert (G : forall A, needed (ast_rules w_cc) [83]%N A -> A = [83]%N \/ A = [67]%N).
      { induction 1 as [|A b B _ _ Hin HB]; [left; reflexivity|right]. cbn in Hin.
        repeat (destruct Hin as [E|Hin]; [injection E as <- <-; cbn in HB; repeat (destruct HB as [HB|HB]; [try discriminate HB; injection HB as <-; reflexivity|]); destruct HB|]).
        destruct Hin. }
      intros A b Hin Hn. apply G in Hn. cbn in Hin. destruct Hin as [E|[E|[]]]; injection E as <- _; destruct Hn; discriminate.
  - intros A b x Hin Hx. cbn in Hin. destruct Hin as [E|[E|[]]]; injection E as <- <-; cbn in Hx.
    + destruct Hx as [<-|[<-|[]]]; [left; eauto|right]. exists [67]%N, [Grammar.SStr [99]%N; SNon [67]%N]. cbn. auto.
    + destruct Hx as [<-|[<-|[]]]; left; eauto.
  - vm_compute in Eg. injection Eg as <-. vm_compute in Eg'. injection Eg' as <-.
    split; [split; [apply eps_free_b_ok|apply eof_free_b_ok]; reflexivity|]. split; [auto|]. split; [auto|].
    vm_compute in El. injection El as <-. vm_compute in El'. injection El' as <-.
    repeat split; compute_ok.
Qed.
