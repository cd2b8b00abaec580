(** Property C58, for all that the library does: a grammar file is read, a lexer and the tables are
    built and a text is parsed in the same way by debug builds and release builds. *)
From Coq Require Import Ascii String.
From Verif Require Import Base Text Regex Nfa Overlap OverlapProofs Dfa Lex LexSpec LexProofs Grammar GrammarSpec GrammarProofs First Item ItemSpec ItemProofs
  Table TableSpec MergeProofs TableProofs TableFacts Witness LexGrammar LexGrammarProofs Lalr EndProofs Parse ParseSpec ParseTerm PropsParse
  Support GrammarFile GrammarFileSpec GrammarFileProofs PropsGrammarFile PropsCost PropsLex Lisp Release ReleaseAll PropsRelease.
Local Open Scope list_scope.

(** ** Grammar files *)

Lemma strip_same a c b : strip (a :: c ++ [b]) = Ok (strip_release (a :: c ++ [b])).
Proof.
  unfold strip, strip_release. destruct (Nat.ltb_spec (length (a :: c ++ [b])) 2) as [Hl|]; [|reflexivity].
  simpl in Hl. rewrite app_length in Hl. simpl in Hl. lia.
Qed.
Lemma quoted_same s : proper (GStr s) -> alloc_quoted_str s = Ok (alloc_quoted_str_release s).
Proof. intros (c & -> & _). apply strip_same. Qed.
Lemma regex_same s : proper (GStr s) -> alloc_regex s = Ok (alloc_regex_release s).
Proof. intros (c & -> & _). unfold alloc_regex, alloc_regex_release. destruct (_ <? 3); [reflexivity|apply strip_same]. Qed.
Lemma code_same s : proper (GCode s) -> alloc_ts_code s = Ok (alloc_ts_code_release s).
Proof. intros (c & -> & _). apply strip_same. Qed.

(** Two readers agree, and leave proper tokens. *)
Definition agree {A} (ts : list gtok) (f h : list gtok -> res (A * list gtok)) : Prop :=
  Forall proper ts -> h ts = f ts /\ forall x r, f ts = Ok (x, r) -> Forall proper r.

Local Ltac proper_tail := repeat match goal with H : Forall proper (_ :: _) |- _ => inversion H; clear H; subst end.

Lemma symbol_same ts : agree ts parse_symbol parse_symbol_release.
Proof.
  intros H. unfold parse_symbol, parse_symbol_release. destruct ts as [|[] ts]; try (split; [reflexivity|discriminate]; fail).
  - destruct ts as [|[] ts]; try (split; [reflexivity|discriminate]; fail). proper_tail. rewrite regex_same by assumption.
    split; [reflexivity|]. intros x r E. injection E as <- <-. assumption.
  - proper_tail. rewrite quoted_same by assumption. split; [reflexivity|]. intros x r E. injection E as <- <-. assumption.
  - proper_tail. split; [reflexivity|]. intros x r E. injection E as <- <-. assumption.
Qed.
Lemma named_same ts : agree ts parse_named parse_named_release.
Proof.
  intros H. pose proof (symbol_same ts H) as Hs. unfold parse_named, parse_named_release. destruct ts as [|[] ts]; try exact Hs.
  destruct ts as [|[] ts]; try exact Hs. destruct ts as [|[] ts]; try exact Hs. clear Hs. proper_tail.
  destruct (symbol_same ts) as [E Hr]; [assumption|]. rewrite E.
  destruct (parse_symbol ts) as [[x r]| |]; cbn [bind fst snd]; try (split; [reflexivity|discriminate]; fail).
  specialize (Hr x r eq_refl). split; [reflexivity|]. intros y r' Ey. destruct r as [|[] r]; try discriminate. proper_tail. injection Ey as <- <-. assumption.
Qed.
Lemma syms_same fuel : forall ts, agree ts (parse_syms fuel) (parse_syms_release fuel).
Proof.
  induction fuel as [|f IH]; intros ts H; cbn [parse_syms parse_syms_release]; [split; [reflexivity|discriminate]|].
  destruct (named_same ts H) as [E Hr]. rewrite E. destruct (parse_named ts) as [[x r]| |]; cbn [bind fst snd]; try (split; [reflexivity|discriminate]; fail).
  specialize (Hr x r eq_refl). destruct (IH r Hr) as [E' Hr'].
  assert (G : (let* xsr := parse_syms_release f r in Ok (x :: fst xsr, snd xsr)) = (let* xsr := parse_syms f r in Ok (x :: fst xsr, snd xsr)) /\
              forall y q, (let* xsr := parse_syms f r in Ok (x :: fst xsr, snd xsr)) = Ok (y, q) -> Forall proper q).
  { rewrite E'. split; [reflexivity|]. intros y q Ey. apply bind_ok in Ey as ([ys q'] & Es & Ey). injection Ey as <- <-. eauto. }
  destruct r as [|[] r]; try exact G. split; [reflexivity|]. intros y q Ey. proper_tail. injection Ey as <- <-. assumption.
Qed.
Lemma body_same fuel ts : agree ts (parse_body fuel) (parse_body_release fuel).
Proof.
  intros H. unfold parse_body, parse_body_release. destruct (syms_same fuel ts H) as [E Hr]. rewrite E.
  destruct (parse_syms fuel ts) as [[x r]| |]; cbn [bind fst snd]; try (split; [reflexivity|discriminate]; fail).
  specialize (Hr x r eq_refl). destruct r as [|[] r]; try (split; [reflexivity|discriminate]; fail). proper_tail. rewrite code_same by assumption. cbn [bind].
  split; [reflexivity|]. intros y q Ey. injection Ey as <- <-. assumption.
Qed.
Lemma bodies_same fuel : forall ts, agree ts (parse_bodies fuel) (parse_bodies_release fuel).
Proof.
  induction fuel as [|f IH]; intros ts H; cbn [parse_bodies parse_bodies_release]; [split; [reflexivity|discriminate]|].
  destruct (body_same f ts H) as [E Hr]. rewrite E.
  match goal with |- _ = ?R /\ _ => set (G := R) end.
  assert (Hm : forall br, parse_body f ts = Ok br ->
    match snd br with
    | GComma :: r => let* bsr := parse_bodies_release f r in Ok (fst br :: fst bsr, snd bsr)
    | GClose :: r => Ok ([fst br], r)
    | _ => Panic PUnwrapNone
    end = match snd br with
    | GComma :: r => let* bsr := parse_bodies f r in Ok (fst br :: fst bsr, snd bsr)
    | GClose :: r => Ok ([fst br], r)
    | _ => Panic PUnwrapNone
    end /\ forall y q, match snd br with
    | GComma :: r => let* bsr := parse_bodies f r in Ok (fst br :: fst bsr, snd bsr)
    | GClose :: r => Ok ([fst br], r)
    | _ => Panic PUnwrapNone
    end = Ok (y, q) -> Forall proper q).
  { intros [b r] Eb. specialize (Hr b r Eb). cbn [fst snd]. destruct r as [|[] r]; try (split; [reflexivity|discriminate]; fail); proper_tail.
    - split; [reflexivity|]. intros y q Ey. injection Ey as <- <-. assumption.
    - destruct (IH r) as [E' Hr']; [assumption|]. rewrite E'. split; [reflexivity|]. intros y q Ey. apply bind_ok in Ey as ([ys q'] & Es & Ey).
      injection Ey as <- <-. eauto. }
  assert (Hb : (let* br := parse_body f ts in match snd br with
    | GComma :: r => let* bsr := parse_bodies_release f r in Ok (fst br :: fst bsr, snd bsr)
    | GClose :: r => Ok ([fst br], r)
    | _ => Panic PUnwrapNone
    end) = (let* br := parse_body f ts in match snd br with
    | GComma :: r => let* bsr := parse_bodies f r in Ok (fst br :: fst bsr, snd bsr)
    | GClose :: r => Ok ([fst br], r)
    | _ => Panic PUnwrapNone
    end) /\ forall y q, (let* br := parse_body f ts in match snd br with
    | GComma :: r => let* bsr := parse_bodies f r in Ok (fst br :: fst bsr, snd bsr)
    | GClose :: r => Ok ([fst br], r)
    | _ => Panic PUnwrapNone
    end) = Ok (y, q) -> Forall proper q).
  { destruct (parse_body f ts) as [br| |]; cbn [bind]; try (split; [reflexivity|discriminate]; fail). apply Hm. reflexivity. }
  subst G. destruct ts as [|[] ts]; try exact Hb. split; [reflexivity|]. intros y q Ey. proper_tail. injection Ey as <- <-. assumption.
Qed.
Lemma rule_same fuel st ts : agree ts (parse_rule fuel st) (parse_rule_release fuel st).
Proof.
  intros H. unfold parse_rule, parse_rule_release. destruct ts as [|[] ts]; try (split; [reflexivity|discriminate]; fail).
  do 4 (destruct ts as [|[] ts]; try (split; [reflexivity|discriminate]; fail)). proper_tail. rewrite code_same by assumption. cbn [bind].
  destruct (bodies_same fuel ts) as [E Hr]; [assumption|]. rewrite E. split; [reflexivity|]. intros y q Ey. apply bind_ok in Ey as ([ys q'] & Es & Ey).
  injection Ey as <- <-. eauto.
Qed.
Lemma production_same fuel ts : agree ts (parse_production fuel) (parse_production_release fuel).
Proof.
  intros H. unfold parse_production, parse_production_release. destruct ts as [|[] ts]; try (apply rule_same; exact H).
  proper_tail. destruct ts as [|[] ts]; try (apply rule_same; assumption). proper_tail. apply rule_same. assumption.
Qed.
Lemma program_same fuel : forall ts, Forall proper ts -> parse_program_release fuel ts = parse_program fuel ts.
Proof.
  induction fuel as [|f IH]; intros ts H; [reflexivity|]. cbn [parse_program parse_program_release]. destruct (production_same f ts H) as [E Hr]. rewrite E.
  destruct (parse_production f ts) as [[p r]| |]; cbn [bind fst snd]; try reflexivity. pose proof (IH r (Hr p r eq_refl)) as E'. destruct r; [reflexivity|]. rewrite E'. reflexivity.
Qed.

(** Every text is read as the same rules by both builds, or by neither. *)
Theorem C58_reading : forall text, parse_grammar_release text = parse_grammar text.
Proof.
  intros text. unfold parse_grammar, parse_grammar_release. destruct (file_tokens (length text) text) as [ts| |] eqn:E; cbn [bind]; try reflexivity.
  apply program_same. apply file_tokens_iff in E. apply Tokens_proper in E. exact E.
Qed.
Print Assumptions C58_reading.

(** ** The lexer *)

Lemma foldM_same {A B} (f h : B -> A -> res B) l : (forall x, In x l -> forall b, h b x = f b x) -> forall b, foldM h l b = foldM f l b.
Proof.
  induction l as [|x l IH]; intros H b; [reflexivity|]. cbn [foldM]. rewrite H by (left; reflexivity).
  destruct (f b x); cbn [bind]; try reflexivity. apply IH. intros y Hy. apply H. right. exact Hy.
Qed.
Lemma run_all {S R} (f h : S -> S + R) : (forall s, h s = f s) -> forall b s, run h b s = run f b s.
Proof. intros H b. induction b as [|b IH]; intros s; cbn [run]; [apply H|]. rewrite IH. destruct (run f b s); auto. Qed.

(** Any list of tokens gives the same lexer. *)
Theorem C58_lexer : forall tokens, from_tokens_release tokens = from_tokens tokens.
Proof.
  intros tokens. unfold from_tokens, from_tokens_release. destruct (lex_nfa tokens) as [[n m]| |]; cbn [bind]; try reflexivity.
  assert (E : from_nfa_release n = from_nfa n); [|rewrite E; reflexivity].
  unfold from_nfa, from_nfa_release. destruct (nfa_labels n) as [ls| |]; cbn [bind]; try reflexivity.
  destruct (remove_overlap _) as [al| |] eqn:Ea; cbn [bind]; try reflexivity. unfold build, build_release.
  destruct (nfa_epsilon_closure n _) as [c0| |]; cbn [bind]; try reflexivity.
  rewrite (run_all (build_step n al)); [reflexivity|]. intros st. unfold build_step, build_step_release. destruct (find_index _ _) as [i|]; [|reflexivity].
  rewrite (foldM_same (build_label n i)); [reflexivity|]. intros x Hx b. unfold build_label, build_label_release.
  destruct (nth_error (b_states b) i) as [s|]; [|reflexivity]. rewrite (C58_dfa _ _ Ea n s x Hx). reflexivity.
Qed.
Print Assumptions C58_lexer.

(** ** The library *)

(** The tokens of a text, converted: no more than the text has characters, then the end. *)
Lemma tokens_count parse ast g L : grammar_from_ast ast = Ok g -> from_grammar parse g = Ok L -> forall input ts conv,
  lex L input = Ok ts -> convert_tokens L ts = Ok conv ->
  exists w, ended (map snd conv) w /\ length w <= length input.
Proof.
  intros Hg EL input ts conv Hlex Ec. destruct (grammar_from_ast_ok _ _ Hg) as (st & _ & W & _).
  destruct (convert_characterised parse ast g L Hg EL ts) as [H1 H2].
  assert (Hdec : (forall tk, In tk ts -> In (Grammar.SStr (tk_name tk)) (g_tokens g) \/ In (SReg (tk_name tk)) (g_tokens g)) \/
            (exists tk, In tk ts /\ ~ In (Grammar.SStr (tk_name tk)) (g_tokens g) /\ ~ In (SReg (tk_name tk)) (g_tokens g))).
  { clear. induction ts as [|tk ts [IH|(u & Hu & IH)]].
    - left. intros tk [].
    - destruct (in_dec ord_dec (Grammar.SStr (tk_name tk)) (g_tokens g)) as [Ha|Ha].
      + left. intros u [<-|Hu]; auto.
      + destruct (in_dec ord_dec (SReg (tk_name tk)) (g_tokens g)) as [Hb|Hb].
        * left. intros u [<-|Hu]; auto.
        * right. exists tk. split; [left; reflexivity|auto].
    - right. exists u. split; [right; exact Hu|exact IH]. }
  destruct Hdec as [Hd|Hd]; [|rewrite (H2 Hd) in Ec; discriminate].
  destruct (H1 Hd) as (c & Ec' & Hf & Hidx). rewrite Ec in Ec'. injection Ec' as ->. exists (map snd c). rewrite map_app. split; [split; [reflexivity|]|].
  - intros H0. apply in_map_iff in H0 as ((tk & k0) & Ek & Hin). cbn [snd] in Ek. subst k0. unfold get_token in Hidx.
    destruct (wg_tokens _ _ W) as (lt & El & _). rewrite El in Hidx. destruct (Hidx _ _ Hin) as [Hx|[Hx _]]; discriminate Hx.
  - rewrite map_length, <- (map_length fst), Hf. destruct (from_grammar_inv _ _ _ EL) as (tokens & Et & EL').
    destruct (C12_lexemes_in_order tokens L EL' input) as (xs & rest & [Ea _] & Hlay). rewrite Ea in Hlex.
    assert (Hl : length ts = length xs).
    { clear - Hlex. revert ts Hlex. induction xs as [|x xs IH]; intros ts E; cbn [mapM] in E; [injection E as <-; reflexivity|].
      apply bind_ok in E as (t & _ & E). apply bind_ok in E as (ts' & E' & E). injection E as <-. cbn. rewrite (IH _ E'). reflexivity. }
    rewrite Hl, <- (map_length drop_idx). clear - Hlay. induction Hlay as [pos r|pos u v ts r Hu _ IH|pos c v ts r _ _ IH]; cbn [length]; try lia.
    rewrite app_length. destruct u; [contradiction|]. cbn [length]. lia.
Qed.

(** For every grammar file and every hash function that tells the cores apart: both builds build the
    same parser, or fail in the same way; they parse every text in the same way, and so does a debug
    build with its counter, if parsing ends and the text is not too long for the counter. *)
Theorem C58_library_partial :
  forall text ast g, parse_grammar text = Ok ast -> grammar_from_ast ast = Ok g ->
  forall parse_regex hash, (forall lr, items g = Ok lr -> collision_free hash lr) ->
  parse_grammar_release text = Ok ast /\
  lalr_new_release parse_regex hash g = lalr_new parse_regex hash g /\
  forall l, lalr_new parse_regex hash g = Ok l -> forall input,
    lalr_parse_release l input = lalr_parse l input /\
    (lalr_parse l input <> Diverge -> (N.of_nat ((2 * length input + 1) * (length (g_prods g) + 2)) < 2147483647)%N ->
     lalr_parse_debug l input = lalr_parse_release l input).
Proof.
  intros text ast g Hp Hg parse hash Hc. split; [rewrite C58_reading; exact Hp|]. apply C52_file_ast in Hp. destruct (file_plain _ _ Hp Hg) as [Hpl _].
  split.
  { unfold lalr_new, lalr_new_release, from_grammar, from_grammar_release. destruct (grammar_tokens parse g) as [tokens| |]; cbn [bind]; try reflexivity.
    rewrite C58_lexer. rewrite (proj1 (C58_tables_partial ast g Hg hash) Hc). reflexivity. }
  intros l Hl input. destruct (new_parts _ _ _ _ Hl) as (Eg & EL & Et).
  assert (H1 : lalr_parse_release l input = lalr_parse l input).
  { unfold lalr_parse, lalr_parse_release. destruct (lex _ input); cbn [bind]; try reflexivity. destruct (convert_tokens _ _); cbn [bind]; try reflexivity.
    rewrite Eg. apply (C58_parser ast g Hg hash _ Et). }
  split; [exact H1|]. rewrite H1. unfold lalr_parse, lalr_parse_debug. destruct (lex (l_lexer l) input) as [ts| |] eqn:Elx; cbn [bind]; try reflexivity.
  destruct (convert_tokens (l_lexer l) ts) as [conv| |] eqn:Ec; cbn [bind]; try reflexivity. rewrite Eg. intros Hd Hn.
  destruct (tokens_count parse ast g _ Hg EL input ts conv Elx Ec) as (w & Hend & Hw).
  destruct (C63_parse_linear_partial ast g Hg Hpl hash _ Et _ _ Hend) as (a & Ha & Hor & _).
  destruct Hor as [Hf|(k & c & Hk & Hs & Hle)].
  - exfalso. apply Hd. destruct (C31_diverge_exact ast g Hg Hpl hash _ Et _ _ Hend) as (a' & Ha' & Hiff & _). rewrite Ha in Ha'. injection Ha' as <-. apply Hiff, Hf.
  - destruct (map snd conv) as [|a' toks] eqn:Em; [discriminate|]. cbn in Ha. injection Ha as ->.
    eapply (proj1 (C58_counter g (l_tables l) a toks)); [exact Hk|exact Hs|]. eapply N.le_lt_trans; [|exact Hn]. assert (Hkk : k <= (2 * length input + 1) * (length (g_prods g) + 2)) by (etransitivity; [exact Hle|apply Nat.mul_le_mono_r; lia]).
    remember ((2 * length input + 1) * (length (g_prods g) + 2)) as m. lia.
Qed.
Print Assumptions C58_library_partial.

(** The hypotheses are met: the committed grammar file, and a text for which all the builds do the same. *)
Example C58_library_nonvacuous : parse_grammar lisp_text = Ok lisp_ast /\
  exists g l ps, grammar_from_ast lisp_ast = Ok g /\ (forall lr, items g = Ok lr -> collision_free ehash lr) /\
    lalr_new_release lisp_regex ehash g = Ok l /\ lalr_new lisp_regex ehash g = Ok l /\
    (N.of_nat ((2 * 9 + 1) * (length (g_prods g) + 2)) < 2147483647)%N /\
    lalr_parse_release l (tx "(add 1 2)") = Ok ps /\ lalr_parse_debug l (tx "(add 1 2)") = Ok ps /\ ps <> [].
Proof.
  split; [apply C51_nonvacuous|].
  destruct (grammar_from_ast lisp_ast) as [g| |] eqn:Eg; [|vm_compute in Eg; discriminate Eg..].
  destruct (lalr_new lisp_regex ehash g) as [l| |] eqn:El; [|vm_compute in Eg; injection Eg as <-; vm_compute in El; discriminate El..].
  destruct (lalr_parse_release l (tx "(add 1 2)")) as [ps| |] eqn:E1.
  2,3: exfalso; vm_compute in Eg; injection Eg as <-; vm_compute in El; injection El as <-; vm_compute in E1; discriminate E1.
  exists g, l, ps. split; [reflexivity|]. assert (Hc : forall lr, items g = Ok lr -> collision_free ehash lr) by (intros lr Hlr; apply ehash_free).
  split; [exact Hc|]. destruct (C58_library_partial _ _ _ (proj1 C51_nonvacuous) Eg lisp_regex ehash Hc) as (_ & H1 & H2).
  split; [rewrite H1; exact El|]. split; [exact El|]. destruct (H2 l El (tx "(add 1 2)")) as [H3 H4]. 
  assert (Hn : (N.of_nat ((2 * 9 + 1) * (length (g_prods g) + 2)) < 2147483647)%N) by (vm_compute in Eg; injection Eg as <-; vm_compute; reflexivity).
  split; [exact Hn|]. split; [exact E1|]. split; [|intros ->; vm_compute in Eg; injection Eg as <-; vm_compute in El; injection El as <-; vm_compute in E1; discriminate E1].
  rewrite <- E1. apply H4; [|exact Hn]. rewrite <- H3, E1. discriminate.
Qed.
