(** Property C95 for grammar files and texts. *)
From Coq Require Import String.
From Verif Require Import Base Text Regex Nfa NfaProofs Dfa Lex LexSpec LexNfa LexProofs Grammar GrammarSpec GrammarProofs First Item ItemSpec ItemProofs ItemPlain
  GrammarCheck Table TableSpec MergeProofs TableProofs TableFacts LexGrammar LexGrammarProofs Parse ParseSpec ParseCheck TreeFacts Auto ParseProofs ParseTerm ParseCycle ParseComplete
  Report ReportSpec ReportProofs ReportExact Lalr EndSpec EndProofs Utf8Spec Utf8Proofs GrammarFile GrammarFileSpec Witness PrintSpec
  PropsLex PropsGrammar PropsTable PropsParse PropsReport PropsEnd PropsGrammarFile PropsWhole PropsOutcome PropsParseEnd PropsPrint Lisp PropsLisp Trace TraceSpec PropsTrace.
Local Open Scope list_scope.

(** No literal and no regular expression contains a line end. *)
Definition texts_one_line (g : grammar) : Prop := forall s, In (Grammar.SStr s) (g_tokens g) \/ In (SReg s) (g_tokens g) -> ~ In 10%N s.

Lemma ident_no_nl n : ident n -> ~ In 10%N n.
Proof.
  destruct n as [|c n]; [intros []|]. intros [H1 H2] [H|H]; [subst c; unfold ident_start in H1; lia|].
  rewrite Forall_forall in H2. apply H2 in H. unfold ident_rest, ident_start in H. lia.
Qed.
Lemma file_one_line ast g : file_ast ast -> grammar_from_ast ast = Ok g -> texts_one_line g -> one_line g.
Proof.
  intros [_ Hf] Hg Ht. destruct (grammar_from_ast_ok _ _ Hg) as (st & Hs & W & Est & Ep).
  apply find_some in Hs as [Hs _]. destruct (Hf st Hs) as [Hid _].
  assert (HT : forall p x, In p (g_prods g) -> In x (p_syms p) -> In x (g_tokens g)).
  { intros p x Hp Hx. destruct (wg_tokens _ _ W) as (l & -> & _ & Hin). right. apply Hin. eauto. }
  intros p Hp. pose proof (HT p) as HTp. specialize (fun x => HTp x Hp). rewrite Ep in Hp. destruct Hp as [<-|Hp].
  - cbn [p_name p_syms]. split.
    + unfold aug_name. apply no_nl_app; [apply ident_no_nl, Hid|cbn; intuition discriminate].
    + intros x [<-|[]]. cbn [show_sym]. apply ident_no_nl, Hid.
  - apply in_flat_map in Hp as (a & Ha & Hp). apply in_map_iff in Hp as (b & <- & Hb). destruct (Hf a Ha) as [Hn Hb'].
    destruct (Hb' b Hb) as [_ HF]. cbn [p_name p_syms] in *. split; [apply ident_no_nl, Hn|].
    intros x Hx. pose proof (HTp x Hx) as Hi. apply in_map_iff in Hx as (y & <- & Hy). rewrite Forall_forall in HF.
    destruct (file_named_lower _ (HF _ Hy)) as (N1 & N2 & N3). destruct (lower y) as [s|s|s| |] eqn:El; try contradiction; cbn [show_sym].
    + apply Ht. auto.
    + apply ident_no_nl, N3. reflexivity.
    + apply Ht. auto.
Qed.

Section File.
  Variables (parse : str -> option hir) (hash : list item -> N) (text : str) (l : lalr).
  Hypothesis Hb : build parse hash text = Ok l.
  Hypothesis Ho : texts_one_line (l_grammar l).

  Lemma file_setting : exists ast st, file_says text ast /\ grammar_from_ast ast = Ok (l_grammar l) /\ find ap_start ast = Some st /\
    eof_free (l_grammar l) /\ start_fresh (l_grammar l) /\ one_line (l_grammar l) /\ from_grammar parse (l_grammar l) = Ok (l_lexer l) /\ make_tables hash (l_grammar l) = Ok (l_tables l).
  Proof using Hb Ho.
    unfold build in Hb. apply bind_ok in Hb as (ast & Ea & H). apply bind_ok in H as (g & Hg & Hl).
    pose proof (C52_file_ast _ _ Ea) as Hf. destruct (new_parts _ _ _ _ Hl) as (Eg & EL & Et). rewrite <- Eg in *.
    destruct (file_plain _ _ Hf Hg) as [[_ Hp] Hfr]. destruct (grammar_from_ast_ok _ _ Hg) as (st & Hs & _).
    exists ast, st. split; [apply C51_reading, Ea|]. do 4 (split; [assumption|]). split; [eapply file_one_line; eassumption|]. split; assumption.
  Qed.
  Lemma text_tokens input ps : lalr_parse l input = Ok ps -> exists ts conv w, lex (l_lexer l) input = Ok ts /\
    convert_tokens (l_lexer l) ts = Ok (conv ++ [(Token eof_name None, 0)]) /\ map fst conv = ts /\ ended (map snd (conv ++ [(Token eof_name None, 0)])) w /\ w = map snd conv /\
    (forall tk k, In (tk, k) conv -> get_token (l_grammar l) k = Some (SReg (tk_name tk)) \/ get_token (l_grammar l) k = Some (Grammar.SStr (tk_name tk))) /\
    parse_impl (l_grammar l) (l_tables l) (map snd (conv ++ [(Token eof_name None, 0)])) = Ok ps.
  Proof using Hb Ho.
    destruct file_setting as (ast & st & _ & Hg & _ & He & _ & _ & EL & _).
    unfold lalr_parse. intros H. apply bind_ok in H as (ts & Hlex & H). apply bind_ok in H as (cv & Ec & H).
    destruct (convert_characterised parse ast _ _ Hg EL ts) as [H1 H2].
    assert (Hdec : (forall tk, In tk ts -> In (Grammar.SStr (tk_name tk)) (g_tokens (l_grammar l)) \/ In (SReg (tk_name tk)) (g_tokens (l_grammar l))) \/
              (exists tk, In tk ts /\ ~ In (Grammar.SStr (tk_name tk)) (g_tokens (l_grammar l)) /\ ~ In (SReg (tk_name tk)) (g_tokens (l_grammar l)))).
    { clear. induction ts as [|tk ts [IH|(u & Hu & IH)]].
      - left. intros tk [].
      - destruct (in_dec ord_dec (Grammar.SStr (tk_name tk)) (g_tokens (l_grammar l))) as [Ha|Ha].
        + left. intros u [<-|Hu]; auto.
        + destruct (in_dec ord_dec (SReg (tk_name tk)) (g_tokens (l_grammar l))) as [Hb|Hb]; [left; intros u [<-|Hu]; auto|right; exists tk; cbn; auto].
      - right. exists u. cbn. auto. }
    destruct Hdec as [Hd|Hd]; [|rewrite (H2 Hd) in Ec; discriminate].
    destruct (H1 Hd) as (conv & Ec' & Hf & Hk). rewrite Ec' in Ec. injection Ec as <-. exists ts, conv, (map snd conv). repeat (split; auto).
    - rewrite map_app. reflexivity.
    - intros Hz. apply in_map_iff in Hz as ([tk k] & Ek & Hin). cbn in Ek. subst k.
      destruct (grammar_from_ast_ok _ _ Hg) as (s' & _ & W & _). destruct (wg_tokens _ _ W) as (lt & El & _).
      destruct (Hk _ _ Hin) as [X|[X _]]; unfold get_token in X; rewrite El in X; discriminate X.
    - intros tk k Hin. destruct (Hk _ _ Hin) as [X|[X _]]; auto.
  Qed.
End File.

(** An accepted text of a grammar file: what is printed is the parse tree in post-order.  Two accepted
    texts for which the same is printed have the same symbols and the same reductions. *)
Theorem C95_file :
  forall parse hash text l, build parse hash text = Ok l -> texts_one_line (l_grammar l) ->
  forall show, (forall conv i, ~ In 10%N (show conv i)) ->
  (forall input ps, lalr_parse l input = Ok ps -> exists ast st ts out tr before,
     file_says text ast /\ find ap_start ast = Some st /\ lex (l_lexer l) input = Ok ts /\ lalr_output show l input = Ok (Some (Ok ps, out)) /\
     tree_ok (l_grammar l) tr /\ root (l_grammar l) tr = Some (SNon (ap_name st)) /\
     Forall2 (fun tk x => x = Grammar.SStr (tk_name tk) \/ x = SReg (tk_name tk)) ts (yield tr) /\
     ps = postorder tr /\ rules_named (printed out) = map (written_rule (l_grammar l)) (postorder tr) /\
     lines_of (printed out) = before ++ [tx "Accepting!"; tx "LOOP COUNT: " ++ decn (length ts + length (postorder tr) + 1)]) /\
  (forall input input' ps ps' out out', lalr_output show l input = Ok (Some (Ok ps, out)) -> lalr_parse l input = Ok ps ->
     lalr_output show l input' = Ok (Some (Ok ps', out')) -> lalr_parse l input' = Ok ps' -> printed out = printed out' ->
     ps = ps' /\ exists ts ts', lex (l_lexer l) input = Ok ts /\ lex (l_lexer l) input' = Ok ts' /\ map tk_name ts = map tk_name ts').
Proof.
  intros parse hash text l Hb Ho show Hs.
  destruct (file_setting _ _ _ _ Hb Ho) as (ast & st & Hsay & Hg & Hst & He & Hf & Hol & EL & Et). split.
  - intros input ps Hp. destruct (text_tokens _ _ _ _ Hb Ho _ _ Hp) as (ts & conv & w & Hlex & Hc & Hm & Hend & -> & Hk & Himp).
    destruct (C95_accepted _ _ _ Hg Hst He Hf Hol _ _ Et _ (Hs (conv ++ [(Token eof_name None, 0)])) _ _ _ Hend Himp) as (out & tr & before & Hout & Htr & Eps & Hr & Hl).
    destruct Htr as (T1 & T2 & T3).
    assert (HF : Forall2 (fun tk x => x = Grammar.SStr (tk_name tk) \/ x = SReg (tk_name tk)) ts (yield tr)).
    { clear -T3 Hk Hm. subst ts. revert T3. unfold symbols. generalize (yield tr). induction conv as [|[tk k] conv IH]; intros [|x ys] E; try discriminate; [constructor|].
      cbn [map] in *. injection E as E1 E2. constructor; [|apply IH; auto; intros; apply Hk; right; auto].
      destruct (Hk tk k (or_introl eq_refl)) as [X|X]; unfold get_token in X; cbn [fst]; cbn [snd] in E1; rewrite X in E1; injection E1 as <-; auto. }
    exists ast, st, ts, out, tr, before. repeat (split; auto).
    + unfold lalr_output. rewrite Hlex. cbn [bind]. rewrite Hc. cbn [bind]. rewrite Hout. reflexivity.
    + rewrite Hl. replace (length ts) with (length (yield tr)); [reflexivity|]. symmetry. clear -HF. induction HF; cbn; auto.
  - intros input input' ps ps' out out' Ho1 Hp Ho2 Hp' E.
    destruct (text_tokens _ _ _ _ Hb Ho _ _ Hp) as (ts & conv & w & Hlex & Hc & Hm & Hend & -> & Hk & Himp).
    destruct (text_tokens _ _ _ _ Hb Ho _ _ Hp') as (ts' & conv' & w & Hlex' & Hc' & Hm' & Hend' & -> & Hk' & Himp').
    unfold lalr_output in Ho1, Ho2. rewrite Hlex in Ho1. cbn [bind] in Ho1. rewrite Hc in Ho1. cbn [bind] in Ho1.
    rewrite Hlex' in Ho2. cbn [bind] in Ho2. rewrite Hc' in Ho2. cbn [bind] in Ho2. injection Ho1 as Ho1. injection Ho2 as Ho2.
    assert (Ew : map snd conv = map snd conv').
    { eapply (C95_output_tells _ _ _ Hg Hst He Hf Hol _ _ Et _ _ _ _ _ _ ps ps' out out' (Hs _) (Hs _) Hend Hend' Ho1 Himp Ho2 Himp' E). }
    split.
    + rewrite map_app in Himp, Himp'. rewrite Ew, Himp' in Himp. congruence.
    + exists ts, ts'. split; auto. split; auto. subst ts ts'. clear -Ew Hk Hk'. revert conv' Ew Hk'. induction conv as [|[tk k] conv IH]; intros [|[tk' k'] conv'] E Hk'; try discriminate; auto.
      cbn [map fst snd] in *. injection E as <- E. f_equal; [|apply IH; auto; intros; [apply Hk|apply Hk']; right; auto].
      destruct (Hk tk k (or_introl eq_refl)) as [X|X]; destruct (Hk' tk' k (or_introl eq_refl)) as [Y|Y]; congruence.
Qed.
Print Assumptions C95_file.

(** The committed grammar, and what is printed for (add 1 2). *)
Definition texts_one_line_b (g : grammar) : bool :=
  forallb (fun x => match x with Grammar.SStr s | SReg s => negb (existsb (N.eqb 10) s) | _ => true end) (g_tokens g).
Lemma texts_one_line_b_ok g : texts_one_line_b g = true -> texts_one_line g.
Proof. unfold texts_one_line_b. rewrite forallb_forall. intros H s [Hs|Hs]; apply has_not; exact (H _ Hs). Qed.
Example C95_file_nonvacuous : exists l ps out, build lisp_regex ehash lisp_text = Ok l /\ texts_one_line (l_grammar l) /\
  lalr_parse l (tx "(add 1 2)") = Ok ps /\ lalr_output (fun _ => decn) l (tx "(add 1 2)") = Ok (Some (Ok ps, out)) /\ length out = 47 /\
  nth_error out 2 = Some (tx "  shifting 2").
Proof.
  destruct (build lisp_regex ehash lisp_text) as [l| |] eqn:E; [|vm_compute in E; discriminate E..]. exists l.
  assert (HT : texts_one_line (l_grammar l)) by (clear -E; vm_compute in E; injection E as <-; apply texts_one_line_b_ok; vm_compute; reflexivity).
  assert (HR : exists ps out, lalr_parse l (tx "(add 1 2)") = Ok ps /\ lalr_output (fun _ => decn) l (tx "(add 1 2)") = Ok (Some (Ok ps, out)) /\ length out = 47 /\
    nth_error out 2 = Some (tx "  shifting 2")).
  { clear -E. vm_compute in E. injection E as <-. do 2 eexists. split; [vm_compute; reflexivity|]. split; [vm_compute; reflexivity|]. split; vm_compute; reflexivity. }
  destruct HR as (ps & out & HR). exists ps, out. auto.
Qed.
