(** Property C80: what more text can change. *)
From Verif Require Import Base Regex Nfa NfaProofs Overlap OverlapProofs OverlapLaminar Dfa DfaProofs
  Lex LexSpec LexLoop NfaLive LexNfa LexProofs Utf8Proofs PropsLex WhiteSpace AppendProofs.
From Verif Require Import Grammar GrammarSpec GrammarProofs Item Table LexGrammar LexGrammarProofs Parse ParseSpec Report ReportSpec ReportProofs
  Lalr EndSpec EndProofs Witness PropsEnd PropsWhite.

Local Ltac compute_ok := vm_compute; reflexivity.
Local Ltac lwitness w Eg El :=
  destruct (grammar_from_ast w) as [g| |] eqn:Eg; [|vm_compute in Eg; discriminate Eg..];
  destruct (lalr_new no_regex ehash g) as [l| |] eqn:El; [|vm_compute in Eg; injection Eg as <-; vm_compute in El; discriminate El..].
Local Ltac lopen Eg El := vm_compute in Eg; injection Eg as <-; vm_compute in El; injection El as <-.

(** ** The lexer *)

(** The full statement (the tokens of a text are the first tokens of every longer text) is false, of the
    last token: "ab" is read as [a], "abc" as [abc]. *)
Theorem C80_tokens_refuted :
  exists tokens L a b x y, from_tokens tokens = Ok L /\ ascii (a ++ b) /\ lex L a = Ok x /\ lex L (a ++ b) = Ok y /\
    forall y2, y <> x ++ y2.
Proof.
  exists ex_abc. eexists. exists [97; 98]%N, [99]%N. eexists. eexists. split; [compute_ok|]. split; [repeat constructor; lia|].
  split; [compute_ok|]. split; [compute_ok|]. intros y2 E. discriminate E.
Qed.
Print Assumptions C80_tokens_refuted.

(** All tokens but the last are: for all definitions and all texts, ASCII or not.  With values. *)
Theorem C80_tokens_stay_partial :
  forall tokens L, from_tokens tokens = Ok L ->
  forall a x, lex L a = Ok x -> forall b y, lex L (a ++ b) = Ok y ->
  exists y2, y = firstn (pred (length x)) x ++ y2.
Proof. exact lex_more. Qed.
Print Assumptions C80_tokens_stay_partial.

(** If reading ended before the end of the text (C13), nothing that follows is looked at: it is as if it
    were not there.  The text is read with maximal munch, and its untokenised rest can be continued to no
    token, alone or together with the last token.  (For the definitions of C13.) *)
Theorem C80_ignored_partial :
  forall tokens L, from_tokens tokens = Ok L -> split_refines (map snd tokens) ->
  (forall h, In h (map snd tokens) -> productive h) ->
  forall a ts rest, Tokenize (viable (map snd tokens)) (first_match (map snd tokens)) 0 a ts rest ->
  ~ unfinished (viable (map snd tokens)) a ts rest ->
  forall b, lex L (a ++ b) = lex L a.
Proof.
  intros tokens L HL Hn Hp a ts rest HT Hu b.
  destruct (lex_tokens_live tokens L HL) as (lv & ac & (Elv & Hl & Hd) & Hs & Ht & Hlvd & Hacd & Hr).
  destruct (Hr Hn) as [H1 H2]. specialize (H2 Hp).
  destruct (Ht a) as (ts1 & r1 & i1 & HT1 & E1 & _).
  assert (HT2 : Tokenize (viable (map snd tokens)) (first_match (map snd tokens)) 0 a ts1 r1).
  { assert (G : forall pos s ts r, Tokenize lv ac pos s ts r -> Tokenize (viable (map snd tokens)) (first_match (map snd tokens)) pos s ts r).
    { assert (Gl : forall u i s, longest ac u i s -> longest (first_match (map snd tokens)) u i s).
      { intros u i s (G1 & G2 & G3). split; auto. split; [apply H1; auto|]. intros x y j E Hx. destruct x as [|c x]; [simpl; lia|].
        eapply (G3 (c :: x) y j); auto. apply H1; auto. discriminate. }
      assert (Gn : forall s, no_match ac s -> no_match (first_match (map snd tokens)) s).
      { intros s H x y j E Hx Hj. apply (H x y j E Hx). apply H1; auto. }
      intros pos s ts' r' H. induction H as [pos|pos u v i ts' r' G1 G2 H IH|pos u v i G1 G2|pos c v ts' r' Hc G2 H IH|pos c v G2 Hc].
      - constructor.
      - apply TkTok; auto. intros Hx. apply G2. apply H2; auto. destruct G1 as (G1 & _). destruct u; [congruence|discriminate].
      - apply TkLast; auto. apply H2; auto. destruct G1 as (G1 & _). destruct u; [congruence|discriminate].
      - apply TkSkip; auto. destruct Hc as [Hw Hc]. split; auto. intros Hx. apply Hc. apply H2; auto. discriminate.
      - apply TkStop; auto. intros [Hw Hx]. apply Hc. split; auto. intros Hy. apply Hx. apply H2; auto. discriminate. }
    apply G. exact HT1. }
  destruct (tokenize_det _ _ (first_match_fun _) _ _ _ _ _ _ HT HT2) as [<- <-].
  eapply (lex_halted tokens L HL lv ac Elv Hl Hd); [|exact HT1|].
  - intros input. destruct (Ht input) as (ts' & r' & i' & HT' & E' & _). eauto.
  - intros [->|[H|(ts' & pre & i & u & -> & E & H)]]; apply Hu.
    + left. reflexivity.
    + destruct rest as [|c rest]; [left; reflexivity|]. right. left. apply H2; auto. discriminate.
    + right. right. exists ts', pre, i, u. split; auto. split; auto. apply H2; auto.
      destruct (tokenize_longest _ _ _ _ _ _ HT1 (length pre) i u) as (_ & _ & _ & _ & (G1 & _)); [apply in_or_app; right; left; auto|].
      destruct u; [congruence|discriminate].
Qed.
Print Assumptions C80_ignored_partial.

Lemma layout_suffix pos s ts r : Layout pos s ts r -> exists pre, s = pre ++ r.
Proof.
  induction 1 as [pos r|pos u v ts r _ _ [pre ->]|pos d v ts r _ _ [pre ->]].
  - exists []. reflexivity.
  - exists (u ++ pre). rewrite app_assoc. reflexivity.
  - exists (d :: pre). reflexivity.
Qed.

(** In particular a character that occurs in no definition and is not white space hides all that
    follows it.  For all definitions. *)
Theorem C80_hidden :
  forall tokens L, from_tokens tokens = Ok L ->
  forall c, (forall r, In r (flat_map written (map snd tokens)) -> ~ covers r c) -> ~ white c ->
  forall a b, lex L (a ++ c :: b) = lex L (a ++ [c]).
Proof.
  intros tokens L HL c Hc Hw a b. change (a ++ c :: b) with (a ++ [c] ++ b). rewrite app_assoc.
  destruct (lex_tokens_live tokens L HL) as (lv & ac & (Elv & Hl & Hd) & Hs & Ht & _).
  destruct (Ht (a ++ [c])) as (ts & r & i & HT & E & _).
  assert (Hdead : forall w, lv w -> ~ In c w).
  { intros w Hx Hin. rewrite Elv in Hx. apply (live_written tokens L HL) in Hx. rewrite Forall_forall in Hx.
    destruct (Hx c Hin) as (x & Hx1 & Hx2). exact (Hc x Hx1 Hx2). }
  assert (Hr : r <> []).
  { intros ->. apply tokenize_layout in HT as Hlay. destruct (layout_chars _ _ _ Hlay c) as [H|(p & u & Hu & Hin)].
    - apply in_or_app. right. left. reflexivity.
    - contradiction.
    - apply in_map_iff in Hu as ([[p' j] u'] & Eu & Hx). injection Eu as <- <-.
      destruct (tokenize_longest _ _ _ _ _ _ HT _ _ _ Hx) as (_ & _ & _ & _ & (_ & Ha & _)). apply (Hdead u'); eauto. }
  assert (Hin : In c r).
  { assert (G : exists pre, a ++ [c] = pre ++ r).
    { apply tokenize_layout in HT. eapply layout_suffix; eauto. }
    destruct G as [pre E']. destruct (exists_last Hr) as (r' & z & ->). rewrite app_assoc in E'. apply app_inj_tail in E' as [_ ->].
    apply in_or_app. right. left. reflexivity. }
  eapply (lex_halted tokens L HL lv ac Elv Hl Hd); [|exact HT|].
  - intros input. destruct (Ht input) as (ts' & r' & i' & HT' & E' & _). eauto.
  - intros [H|[H|(ts' & pre & j & u & _ & _ & H)]]; [contradiction|exact (Hdead _ H Hin)|]. apply (Hdead _ H). apply in_or_app. auto.
Qed.
Print Assumptions C80_hidden.

(** ** The parser *)

(** The parser decides at the first wrong token: whatever follows it, the report is the same. *)
Theorem C80_report :
  forall ast g, grammar_from_ast ast = Ok g -> plain g -> forall hash t, make_tables hash g = Ok t ->
  forall tokens w tokens' w' r, ended tokens w -> ended tokens' w' ->
  parse_report g t tokens = Some r -> firstn (S (rp_pos r)) tokens' = firstn (S (rp_pos r)) tokens ->
  parse_report g t tokens' = Some r /\ parse_impl g t tokens' = Panic PInvalidToken.
Proof.
  intros ast g Hg [He Heof] hash t Ht tokens w tokens' w' r Hend Hend' H Hag.
  destruct (grammar_from_ast_ok _ _ Hg) as (s & Hs & W & Hst & _).
  apply reported in H as (c & q & l & Hc & E & Es & ->). cbn [rp_pos] in Hag.
  assert (Hc' : reached g t tokens' c).
  { eapply reached_agree; [exact Hc|]. intros k Hk. rewrite <- (nth_error_firstn tokens (S (ps_i c)) k), <- (nth_error_firstn tokens' (S (ps_i c)) k) by lia. congruence. }
  assert (E' : parse_step g t tokens' c = inr (Panic PInvalidToken)).
  { revert E. unfold parse_step. rewrite Es. destruct (tbl_get (t_action t) q (ps_a c)) as [[j|p|]|]; auto. discriminate. }
  pose proof (reached_end g _ W Hst hash t Ht He Heof tokens' w' c _ Hend' Hc' E') as Hp. split; [|exact Hp].
  destruct (parse_report_some _ _ _ Hp) as [r' Hr']. rewrite Hr'. f_equal.
  apply reported in Hr' as (c' & q' & l' & Hr1 & Hr2 & Hr3 & ->).
  destruct Hc' as (x & tl & n & Ex & Hn). destruct Hr1 as (x' & tl' & n' & Ex' & Hn'). rewrite Ex in Ex'. injection Ex' as <- <-.
  assert (c' = c) as ->; [|congruence].
  clear - Hn Hn' E' Hr2. revert n' Hn'. induction Hn as [|n c0 c1 c2 E0 Hn IH]; intros n' Hn'.
  - inversion Hn'; subst; congruence.
  - inversion Hn' as [|? ? ? ? E1 Hn1]; subst; [congruence|]. rewrite E0 in E1. injection E1 as <-. eauto.
Qed.
Print Assumptions C80_report.

(** ** Lexer and parser *)

Lemma convert_total parse ast g L input x : grammar_from_ast ast = Ok g -> from_grammar parse g = Ok L -> lex L input = Ok x ->
  exists conv, convert_tokens L x = Ok (conv ++ [(Token eof_name None, 0)]) /\ map fst conv = x /\ ~ In 0 (map snd conv).
Proof.
  intros Hg HL Hx. destruct (from_grammar_inv _ _ _ HL) as (tokens & Et & EL).
  destruct (lex_any tokens L input EL) as (ts & r & _ & Hin & El & _). rewrite Hx in El. symmetry in El.
  destruct (convert_characterised _ _ _ _ Hg HL x) as [H _]. destruct H as (conv & E1 & E2 & E3).
  - apply mapM_Forall2 in El. intros t Ht. clear - El Ht Hin Et. induction El as [|y z ts out Hy HF IH]; [destruct Ht|].
    destruct Ht as [->|Ht]; [|apply IH; auto; intros; eapply Hin; right; eauto].
    destruct (token_of_name _ _ _ _ Hy) as (td & h & Hn & ->). apply nth_error_In in Hn.
    apply (grammar_tokens_spec _ _ _ Et) in Hn as (k & s & n & Hk & Hs & -> & _). cbn [td_name]. apply nth_error_In in Hk.
    destruct s; try discriminate; injection Hs as ->; auto.
  - exists conv. split; auto. split; auto. intros H0. apply in_map_iff in H0 as ([t k] & Ek & Hk). cbn [snd] in Ek. subst k.
    destruct (token_table _ _ Hg) as (H0 & _). destruct (E3 t 0 Hk) as [H|[H _]]; rewrite H0 in H; discriminate.
Qed.

Lemma mapM_firstn {A B} (f : A -> res B) n : forall x y o p, mapM f x = Ok o -> mapM f y = Ok p -> firstn n x = firstn n y -> firstn n o = firstn n p.
Proof.
  induction n as [|n IH]; intros x y o p Ho Hp E; [reflexivity|]. destruct x as [|a x], y as [|b y]; cbn [firstn] in E; try discriminate.
  - congruence.
  - injection E as <- E. cbn [mapM] in Ho, Hp. apply bind_ok in Ho as (v & Ev & Ho). apply bind_ok in Ho as (o' & Eo & Ho). injection Ho as <-.
    apply bind_ok in Hp as (v' & Ev' & Hp). apply bind_ok in Hp as (p' & Ep & Hp). injection Hp as <-. rewrite Ev in Ev'. injection Ev' as <-.
    cbn [firstn]. f_equal. eauto.
Qed.

(** For grammar files: a wrong token that is not the last token of the text stays the first wrong token
    however the text goes on; the report is the same.  Missing: a wrong token that is the last one or the end
    of the text, for which it is false (below). *)
Theorem C80_error_text_partial :
  forall parse hash ast g l, file_ast ast -> grammar_from_ast ast = Ok g -> lalr_new parse hash g = Ok l ->
  forall a x conv r, lex (l_lexer l) a = Ok x -> convert_tokens (l_lexer l) x = Ok conv ->
  parse_report g (l_tables l) (map snd conv) = Some r -> S (rp_pos r) < length x ->
  forall b y, lex (l_lexer l) (a ++ b) = Ok y ->
  lalr_parse l (a ++ b) = Panic PInvalidToken /\
  exists conv', convert_tokens (l_lexer l) y = Ok conv' /\ parse_report g (l_tables l) (map snd conv') = Some r.
Proof.
  intros parse hash ast g l Hf Hg Hl a x conv r Ea Ec Hr Hlen b y Eb. destruct (file_plain _ _ Hf Hg) as [Hp _].
  destruct (new_parts _ _ _ _ Hl) as (Egl & HL & Ht). destruct (from_grammar_inv _ _ _ HL) as (tokens & Et & EL).
  destruct (lex_more tokens _ EL a x Ea b y Eb) as (y2 & Ey).
  destruct (convert_total _ _ _ _ _ _ Hg HL Ea) as (c1 & E1 & F1 & Z1). destruct (convert_total _ _ _ _ _ _ Hg HL Eb) as (c2 & E2 & F2 & Z2).
  rewrite Ec in E1. injection E1 as ->.
  assert (Hag : firstn (S (rp_pos r)) (map snd (c2 ++ [(Token eof_name None, 0)])) = firstn (S (rp_pos r)) (map snd (c1 ++ [(Token eof_name None, 0)]))).
  { unfold convert_tokens in Ec, E2. apply bind_ok in Ec as (o1 & M1 & Ec). apply bind_ok in E2 as (o2 & M2 & E2).
    injection Ec as Ec. injection E2 as E2. apply app_inj_tail in Ec as [-> _]. apply app_inj_tail in E2 as [-> _].
    assert (Hlx : forall n, n <= pred (length x) -> firstn n y = firstn n x).
    { intros n Hn. rewrite Ey, firstn_app, firstn_firstn, firstn_length, Nat.min_l by lia. rewrite (Nat.min_l _ (length x)) by lia. replace (n - _) with 0 by lia. cbn [firstn]. apply app_nil_r. }
    pose proof (mapM_firstn _ (S (rp_pos r)) _ _ _ _ M2 M1 (Hlx (S (rp_pos r)) ltac:(lia))) as HF.
    apply mapM_len in M1, M2. assert (Hy : pred (length x) <= length y) by (rewrite Ey, app_length, firstn_length; lia).
    rewrite !firstn_map, !firstn_app, HF, M1, M2. replace (S (rp_pos r) - length x) with 0 by lia. replace (S (rp_pos r) - length y) with 0 by lia. reflexivity. }
  destruct (C80_report ast g Hg Hp hash _ Ht (map snd (c1 ++ [(Token eof_name None, 0)])) (map snd c1) (map snd (c2 ++ [(Token eof_name None, 0)])) (map snd c2) r) as [R1 R2]; auto.
  - split; auto. rewrite map_app. reflexivity.
  - split; auto. rewrite map_app. reflexivity.
  - split; [|eauto]. unfold lalr_parse. rewrite Eb. cbn [bind]. rewrite E2. cbn [bind]. rewrite Egl. exact R2.
Qed.
Print Assumptions C80_error_text_partial.

(** Rule "ab" "a" "c".  The text "a" is wrong at its first token, [a]; "abac" is a sentence.  So is "ab"
    at its end. *)
Definition w80 : list aprod := [PS 83 [[IStr [97; 98]; IStr [97]; IStr [99]]]]%N.
Theorem C80_error_text_refuted :
  exists ast g l, file_ast ast /\ grammar_from_ast ast = Ok g /\ lalr_new no_regex ehash g = Ok l /\
  (exists a b x conv r, ascii (a ++ b) /\ lex (l_lexer l) a = Ok x /\ convert_tokens (l_lexer l) x = Ok conv /\
     parse_report g (l_tables l) (map snd conv) = Some r /\ S (rp_pos r) = length x /\ exists ps, lalr_parse l (a ++ b) = Ok ps) /\
  (exists a b x conv r, ascii (a ++ b) /\ lex (l_lexer l) a = Ok x /\ convert_tokens (l_lexer l) x = Ok conv /\
     parse_report g (l_tables l) (map snd conv) = Some r /\ rp_pos r = length x /\ exists ps, lalr_parse l (a ++ b) = Ok ps).
Proof.
  exists w80. lwitness w80 Eg El. exists g, l. split; [apply file_b_ok; compute_ok|]. split; auto. split; auto. lopen Eg El. split.
  - exists [97]%N, [98; 97; 99]%N. eexists. eexists. eexists. split; [repeat constructor; lia|]. repeat (split; [compute_ok|]). eexists. compute_ok.
  - exists [97; 98]%N, [97; 99]%N. eexists. eexists. eexists. split; [repeat constructor; lia|]. repeat (split; [compute_ok|]). eexists. compute_ok.
Qed.
Print Assumptions C80_error_text_refuted.

(** The same grammar: "aca" is wrong at its first token and stays so. *)
Example C80_error_text_nonvacuous :
  exists g l x conv r, grammar_from_ast w80 = Ok g /\ lalr_new no_regex ehash g = Ok l /\ file_ast w80 /\
  lex (l_lexer l) [97; 99; 97]%N = Ok x /\ convert_tokens (l_lexer l) x = Ok conv /\
  parse_report g (l_tables l) (map snd conv) = Some r /\ S (rp_pos r) < length x /\
  lalr_parse l [97; 99; 97; 98; 97; 99]%N = Panic PInvalidToken.
Proof.
  lwitness w80 Eg El. exists g, l. eexists. eexists. eexists. split; auto. split; auto. split; [apply file_b_ok; compute_ok|]. lopen Eg El.
  repeat (split; [compute_ok|]). split; [vm_compute; lia|]. compute_ok.
Qed.

Example C80_tokens_nonvacuous : exists L x y, from_tokens ex_tokens = Ok L /\ lex L [97; 32; 49; 32; 98]%N = Ok x /\ length x = 3 /\
  lex L [97; 32; 49; 32; 98; 99; 32; 50]%N = Ok y /\ length y = 4 /\ firstn 2 y = firstn 2 x /\ nth_error y 2 <> nth_error x 2.
Proof. do 3 eexists. repeat (split; [compute_ok|]). vm_compute. discriminate. Qed.

(** "!" is in no definition. *)
Example C80_hidden_nonvacuous : exists L, from_tokens ex_tokens = Ok L /\
  (forall r, In r (flat_map written (map snd ex_tokens)) -> ~ covers r 33%N) /\ ~ white 33%N /\
  lex L [97; 33; 97]%N = lex L [97; 33]%N /\ lex L [97; 32; 97]%N <> lex L [97; 32]%N.
Proof.
  eexists. split; [compute_ok|]. split; [|split; [unfold white; lia|split; [compute_ok|vm_compute; discriminate]]].
  intros r Hr. cbn in Hr. unfold covers. repeat (destruct Hr as [<-|Hr]; [cbn [fst snd]; lia|]). destruct Hr.
Qed.

(** Tokens [a] and [b] on "b!": reading ends at "!". *)
Definition ex_two : list (token_def * hir) := [ex_tok [97] (HLit 97); ex_tok [98] (HLit 98)]%N.
Example C80_ignored_nonvacuous : exists L, from_tokens ex_two = Ok L /\ split_refines (map snd ex_two) /\
  (forall h, In h (map snd ex_two) -> productive h) /\
  Tokenize (viable (map snd ex_two)) (first_match (map snd ex_two)) 0 [98; 33]%N [(0, 1, [98]%N)] [33]%N /\
  ~ unfinished (viable (map snd ex_two)) [98; 33]%N [(0, 1, [98]%N)] [33]%N.
Proof.
  assert (Hl : forall c w, Lang (HLit c) w -> w = [c]) by (intros c w H; inversion H; auto).
  assert (Hv : forall w, viable (map snd ex_two) w -> w = [] \/ w = [97]%N \/ w = [98]%N).
  { intros w (h & v & [<-|[<-|[]]] & H); apply Hl in H; destruct w as [|c w]; auto; injection H as -> H; apply app_eq_nil in H as [-> _]; auto. }
  assert (Hf : forall w i, first_match (map snd ex_two) w i -> w = [97]%N \/ w = [98]%N).
  { intros w i ((h & Hh & H) & _). destruct i as [|[|i]]; cbn in Hh; try (destruct i; discriminate); injection Hh as <-; apply Hl in H; auto. }
  eexists. split; [compute_ok|]. split; [|split; [|split]].
  - apply split_b_ok. compute_ok.
  - intros h [<-|[<-|[]]] x Hx; apply sub_lit_inv in Hx as ->; exact I.
  - apply (TkTok _ _ 0 [98]%N [33]%N 1 [] [33]%N).
    + split; [discriminate|]. split; [split; [eexists; split; [reflexivity|constructor]|]|].
      * intros [|j] h Hj Hh H; [|lia]. injection Hh as <-. apply Hl in H. discriminate.
      * intros u v i E H. apply Hf in H as [-> | ->]; simpl; lia.
    + intros H. apply Hv in H as [H|[H|H]]; discriminate.
    + apply TkStop.
      * intros u v i E Hu H. apply Hf in H as [-> | ->]; discriminate.
      * intros [[H|H] _]; discriminate.
  - intros [H|[H|(ts & pre & i & u & Et & E & H)]]; [discriminate|apply Hv in H as [H|[H|H]]; discriminate|].
    apply Hv in H as [H|[H|H]]; destruct u as [|c [|d u]]; discriminate.
Qed.
