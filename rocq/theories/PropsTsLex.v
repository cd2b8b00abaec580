(** Property C42: the type-level lexer against the Rust lexer. *)
From Coq Require Import Ascii String.
From Verif Require Import Base Regex Nfa NfaProofs Dfa DfaProofs Lex LexSpec LexLoop LexNfa LexProofs Utf8Spec Utf8Proofs Grammar LexGrammar Text
  TsText TsTextFacts TsScan TsTables TsTablesFacts LexGen LexGenProofs LexGenLexer Lisp PropsLexGen TsUtil PropsTsUtil TsLex TsLexProofs.
Local Open Scope list_scope.

(** A character table in which every character has its own code, as the generated one (C49). *)
Definition own_codes (chars : list (N * N)) : Prop := forall c v, map_get c chars = Some v -> v = c.

Lemma ends_at_det L input i j : ends_at L input i -> ends_at L input j -> i = j.
Proof.
  intros (n & s & r & H1 & E1 & <-) (m & s' & r' & H2 & E2 & <-). f_equal.
  destruct (Nat.lt_trichotomy n m) as [Hlt|[->|Hlt]].
  - replace m with (n + S (m - S n)) in H2 by lia. apply nsteps_split in H2 as (u & Hu & Hv). rewrite (nsteps_det _ _ _ _ _ Hu H1) in Hv.
    inversion Hv; subst. congruence.
  - exact (nsteps_det _ _ _ _ _ H1 H2).
  - replace n with (m + S (n - S m)) in H1 by lia. apply nsteps_split in H1 as (u & Hu & Hv). rewrite (nsteps_det _ _ _ _ _ Hu H2) in Hv.
    inversion Hv; subst. congruence.
Qed.

(** The token of the TypeScript lexer for the text [u] of definition number [i]. *)
Definition spelt (tokens : list (token_def * hir)) (x : nat * nat * list N) (y : ts_tok) : Prop :=
  let '(_, i, u) := x in
  exists td h kind, nth_error tokens i = Some (td, h) /\ unq 34 (td_name td) = Some kind /\
    y = TTok kind (if td_with_val td then Some (TLit u) else None).

Lemma plain_spelt tokens ts us : (forall x, In x ts -> snd (fst x) < length tokens) ->
  Forall2 same_token (map (plain_token tokens) ts) us -> Forall2 (spelt tokens) ts us.
Proof.
  revert us. induction ts as [|[[p j] u] ts IH]; intros us Hts H; inversion H as [|? y ? us' (kind & Hk & ->) H']; subst; constructor.
  - cbn. specialize (Hts (p, j, u) (or_introl eq_refl)). cbn in Hts. destruct (nth_error tokens j) as [[td h]|] eqn:E; [|apply nth_error_None in E; lia].
    exists td, h, kind. cbn in Hk. split; auto. split; auto. destruct (td_with_val td); reflexivity.
  - apply IH; auto. intros x Hx. apply Hts. right. auto.
Qed.

Lemma char_run_det L input out i n t r : nsteps (lstep L input (make_char L input)) n (LState [] 0 0 0 None) t ->
  lstep L input (make_char L input) t = inr r -> char_run L input out i -> r = Ok out /\ ls_forward t = i.
Proof.
  intros H1 E1 (m & s' & _ & H2 & E2 & <-).
  enough (t = s') by (subst; split; congruence).
  destruct (Nat.lt_trichotomy n m) as [Hlt|[->|Hlt]].
  - replace m with (n + S (m - S n)) in H2 by lia. apply nsteps_split in H2 as (u & Hu & Hv). rewrite (nsteps_det _ _ _ _ _ Hu H1) in Hv.
    inversion Hv; subst. congruence.
  - exact (nsteps_det _ _ _ _ _ H1 H2).
  - replace n with (m + S (n - S m)) in H1 by lia. apply nsteps_split in H1 as (u & Hu & Hv). rewrite (nsteps_det _ _ _ _ _ Hu H2) in Hv.
    inversion Hv; subst. congruence.
Qed.

(** The TypeScript lexer against the loop over characters. *)
Lemma ts_lex_chars tokens L size chars input : from_tokens tokens = Ok L -> readable tokens -> fits size L -> own_codes chars ->
  (forall c, In c input -> map_get c chars <> None /\ (c <= N.of_nat size)%N) -> length input <= size ->
  exists text T, lex_generate L = Ok text /\ ReadLex text T /\ forall out i, char_run L input out i ->
  (i = length input /\ exists us, ts_lex size chars T input = LexToks (us ++ [TTok (tx "EOF") None]) /\ Forall2 same_token out us) \/
  (i < length input /\ exists c, nth_error input i = Some c /\ ts_lex size chars T input = LexBad c i).
Proof.
  intros HL Hq Hfit Hown Hin Hlen.
  destruct (C41_tables_partial tokens L HL Hq) as (text & T & E1 & E2 & _ & T1 & T2 & T3 & _).
  assert (Hch : forall c, In c input -> map_get c chars = Some c).
  { intros c Hc. destruct (Hin c Hc) as [H _]. destruct (map_get c chars) eqn:E; [|congruence]. apply Hown in E. congruence. }
  exists text, T. split; auto. split; auto. intros out i Hrun. unfold ts_lex.
  assert (Hfa : forallb (fun c => map_mem c chars) input = true).
  { apply forallb_forall. intros c Hc. unfold map_mem. rewrite Hch; auto. }
  rewrite Hfa. set (init := LState [] 0 0 0 None). set (step := lstep L input (make_char L input)).
  pose proof (run_sim step (x_step size chars T input)
    (fun s t => sim L input s t /\ exists n, nsteps step n init s)
    (fun r o => exists s, (exists n, nsteps step n init s) /\ step s = inr r /\ ended input s r o)) as HR.
  assert (Hstep : forall s t, (sim L input s t /\ exists n, nsteps step n init s) ->
    match step s, x_step size chars T input t with
    | inl s', inl t' => sim L input s' t' /\ exists n, nsteps step n init s'
    | inr r, inr o => exists s, (exists n, nsteps step n init s) /\ step s = inr r /\ ended input s r o
    | _, _ => False
    end).
  { intros s t [HS [n Hn]].
    pose proof (sim_step tokens L size chars T input HL Hfit Hch (fun c Hc => proj2 (Hin c Hc)) Hlen T1 T2 T3 s t HS) as H. fold step in H.
    destruct (step s) as [s'|r] eqn:Es, (x_step size chars T input t) as [t'|o]; try contradiction.
    - split; auto. exists (n + 1). eapply nsteps_trans; [exact Hn|]. econstructor; [exact Es|constructor].
    - exists s. split; eauto. }
  specialize (HR Hstep (2 * N.size_nat (N.of_nat (S (length input)))) init (XState 0 [] 0 0 None)).
  destruct (lexer_parts tokens L HL) as (ns & Nf & al & ds & _ & _ & _ & _ & _ & _ & _ & Hok & _).
  assert (H0 : 0 < length (d_first (lx_dfa L))).
  { destruct Hok as ((c0 & (_ & _ & H) & _) & _ & _ & (Hl & _) & _). rewrite Hl. apply nth_error_Some. rewrite H. discriminate. }
  assert (Hi : sim L input init (XState 0 [] 0 0 None) /\ exists n, nsteps step n init init).
  { split; [|exists 0; constructor]. unfold sim, init. cbn. repeat (split; [auto; lia|]). constructor. }
  specialize (HR Hi). pose proof Hrun as (m & t0 & Hm & Hsteps & Hend & _).
  pose proof (nsteps_run _ _ _ _ _ _ Hsteps Hend Hm) as Hr. fold step init in Hr. rewrite Hr in HR.
  destruct (run (x_step size chars T input) _ _) as [t1|o]; try contradiction.
  destruct HR as (s & (n & Hn) & Es & out' & Eo & Hends). destruct (char_run_det _ _ _ _ _ _ _ Hn Es Hrun) as [_ <-].
  injection Eo as <-. destruct Hends as [(Ef & us & -> & Hus)|(c & Ec & ->)].
  + left. split; auto. exists us. auto.
  + right. split; [apply nth_error_Some; congruence|]. exists c. auto.
Qed.

(** For every lexer whose token names can be read and whose ranges start inside the arithmetic
    tables, and every ASCII input of characters of the table, not longer than the tables: on the
    generated tables, the TypeScript lexer returns the tokens of the Rust lexer, kinds and values,
    and EOF, when the Rust lexer reads all of the input; and where the Rust lexer stops early it
    returns the error that names that character and position. *)
Theorem C42_lexers_agree_partial :
  forall tokens L size chars input, from_tokens tokens = Ok L -> readable tokens -> fits size L -> own_codes chars ->
  (forall c, In c input -> map_get c chars <> None) -> ascii input -> length input <= size ->
  exists text T i out, lex_generate L = Ok text /\ ReadLex text T /\ ends_at L input i /\ lex L input = Ok out /\
  ((i = length input /\ exists us, ts_lex size chars T input = LexToks (us ++ [TTok (tx "EOF") None]) /\ Forall2 same_token out us) \/
   (i < length input /\ exists c, nth_error input i = Some c /\ ts_lex size chars T input = LexBad c i)).
Proof.
  intros tokens L size chars input HL Hq Hfit Hown Hin Has Hlen.
  destruct (ts_lex_chars tokens L size chars input HL Hq Hfit Hown) as (text & T & E1 & E2 & H); auto.
  { intros c Hc. split; auto. unfold ascii in Has. rewrite Forall_forall in Has. apply Has in Hc. destruct Hfit. lia. }
  destruct (lex_all tokens L input HL) as (lv & ac & ts & r & i & HT & _ & El & Hrun & He & _). specialize (El Has).
  exists text, T, i, (map (plain_token tokens) ts). split; auto. split; auto. split; eauto.
Qed.
Print Assumptions C42_lexers_agree_partial.

(** The same for any text whose characters are in the table and have codes within it: the two
    lexers find the same pieces of text. The TypeScript lexer returns each as it is written; the
    Rust lexer returns the bytes at the same numbers (C14), or panics if some of them do not lie
    between characters. *)
Theorem C42_any_text_partial :
  forall tokens L size chars input, from_tokens tokens = Ok L -> readable tokens -> fits size L -> own_codes chars ->
  (forall c, In c input -> map_get c chars <> None /\ (c <= N.of_nat size)%N) -> length input <= size ->
  exists text T i ts, lex_generate L = Ok text /\ ReadLex text T /\
  ((exists out, lex L input = Ok out /\ ends_at L input i /\ Forall2 (sliced_as tokens input) ts out) \/
   (lex L input = Panic PSlice /\ exists p j u, In (p, j, u) ts /\ ~ (boundary input p /\ boundary input (p + length u)))) /\
  (forall p j u, In (p, j, u) ts -> exists a b, input = a ++ u ++ b /\ p = length a /\ u <> []) /\
  ((i = length input /\ exists us, ts_lex size chars T input = LexToks (us ++ [TTok (tx "EOF") None]) /\ Forall2 (spelt tokens) ts us) \/
   (i < length input /\ exists c, nth_error input i = Some c /\ ts_lex size chars T input = LexBad c i)).
Proof.
  intros tokens L size chars input HL Hq Hfit Hown Hin Hlen.
  destruct (ts_lex_chars tokens L size chars input HL Hq Hfit Hown) as (text & T & E1 & E2 & H); auto.
  destruct (lex_all tokens L input HL) as (lv & ac & ts & r & i & HT & El & _ & Hrun & He & _ & _ & Hs & _).
  pose proof (tokenize_layout _ _ _ _ _ _ HT) as Hlay.
  assert (Hts : forall x, In x ts -> snd (fst x) < length tokens).
  { intros [[p j] u] Hx. destruct (tokenize_longest _ _ _ _ _ _ HT p j u Hx) as (a & b & _ & _ & (_ & Ha & _)).
    apply Hs in Ha as (h & Hj & _). apply nth_error_lt in Hj. rewrite map_length in Hj. exact Hj. }
  assert (Hpos : forall p j u, In (p, j, u) ts -> exists a b, input = a ++ u ++ b /\ p = length a /\ u <> []).
  { intros p j u Hx. destruct (layout_pos _ _ _ _ Hlay p u) as (a & b & E & Ep & Hu); [apply (in_map drop_idx) in Hx; exact Hx|]. exists a, b. auto. }
  exists text, T, i, ts. split; auto. split; auto. split; [|split; auto].
  - rewrite El. destruct (slice_tokens tokens input ts) as [(out & Ho & HF)|(Hp & p & j & u & td & h & Hx & _ & _ & Hb)].
    + intros p j u Hx. specialize (Hts _ Hx). cbn in Hts. destruct (nth_error tokens j) as [[td h]|] eqn:E; [eauto|apply nth_error_None in E; lia].
    + left. exists out. split; auto. split; auto. apply He. exists out. rewrite El. exact Ho.
    + right. split; auto. exists p, j, u. auto.
  - destruct (H _ _ Hrun) as [(Hi & us & Ets & Hsame)|Hbad]; [left|right; auto].
    split; auto. exists us. split; auto. eapply plain_spelt; eauto.
Qed.
Print Assumptions C42_any_text_partial.

(** In terms of the definitions, when the pieces refine their ranges (C09): the tokens
    are those of [Tokenize], longest match and first definition, and EOF, if the text that is left
    over may begin or continue a token; otherwise the error names the first character with which
    the text that is left over does not begin a token any more, and its position. *)
Theorem C42_reads_partial :
  forall tokens L size chars input, from_tokens tokens = Ok L -> readable tokens -> fits size L -> own_codes chars ->
  (forall c, In c input -> map_get c chars <> None /\ (c <= N.of_nat size)%N) -> length input <= size ->
  split_refines (map snd tokens) -> (forall h, In h (map snd tokens) -> productive h) ->
  let hs := map snd tokens in
  exists text T ts r, lex_generate L = Ok text /\ ReadLex text T /\ Tokenize (viable hs) (first_match hs) 0 input ts r /\
  ((unfinished (viable hs) input ts r /\
     exists us, ts_lex size chars T input = LexToks (us ++ [TTok (tx "EOF") None]) /\ Forall2 (spelt tokens) ts us) \/
   (~ unfinished (viable hs) input ts r /\ exists u x v, r = u ++ x :: v /\ (u = [] \/ viable hs u) /\ ~ viable hs (u ++ [x]) /\
     ts_lex size chars T input = LexBad x (length input - S (length v)))).
Proof.
  intros tokens L size chars input HL Hq Hfit Hown Hin Hlen Hsd Hp hs.
  destruct (ts_lex_chars tokens L size chars input HL Hq Hfit Hown Hin Hlen) as (text & T & E1 & E2 & Hcase).
  destruct (lex_all tokens L input HL) as (lv & ac & ts & r & i & HT & _ & _ & Hrun & _ & Hle & Hh & Hs & Hex).
  specialize (Hcase _ _ Hrun). destruct (Hex Hsd) as [Hac Hlv]. specialize (Hlv Hp).
  exists text, T, ts, r. split; auto. split; auto. split; [revert HT; apply tokenize_ext; auto|].
  apply (halts_ext _ _ _ _ _ _ Hlv) in Hh.
  assert (Hts : forall x, In x ts -> snd (fst x) < length tokens).
  { intros [[p j] u] Hx. destruct (tokenize_longest _ _ _ _ _ _ HT p j u Hx) as (a & b & _ & _ & (_ & Ha & _)).
    apply Hs in Ha as (h & Hj & _). apply nth_error_lt in Hj. rewrite map_length in Hj. exact Hj. }
  destruct Hh as [[Hk Hr]|(Hnu & u & x & v & -> & Hk & Hu & Hn)]; [left|right].
  - split; auto. destruct Hcase as [(_ & us & Ets & Hsame)|(Hi & _)]; [|lia]. exists us. split; auto.
    apply plain_spelt; auto.
  - split; auto. exists u, x, v. split; auto. split; auto. split; auto. destruct Hcase as [(Hi & _)|(Hi & c & Hc & Ets)]; [lia|].
    rewrite Ets. assert (Ei : i = length input - S (length v)) by lia. rewrite <- Ei. f_equal.
    assert (Hlay : exists pre, input = pre ++ u ++ x :: v).
    { clear - HT. remember (u ++ x :: v) as r eqn:E. clear E. induction HT as [pos|pos w y a ts r _ _ _ [pre ->]|pos w y a _ _|pos c w ts r _ _ _ [pre ->]|pos c w _ _].
      - exists []. auto.
      - exists (w ++ pre). rewrite app_assoc. auto.
      - exists w. auto.
      - exists (c :: pre). auto.
      - exists []. auto. }
    destruct Hlay as [pre ->]. rewrite Ei in Hc. rewrite !app_length in Hc. cbn [length] in Hc.
    replace (length pre + (length u + S (length v)) - S (length v)) with (length (pre ++ u) + 0) in Hc by (rewrite app_length; lia).
    rewrite app_assoc, nth_error_app2, Nat.add_comm, Nat.add_sub in Hc by lia. cbn in Hc. injection Hc as <-. reflexivity.
Qed.
Print Assumptions C42_reads_partial.

(** The tables a context is read as. *)
Lemma ctx_tables tokens L c : from_tokens tokens = Ok L -> readable tokens -> lex_ctx_new L = Ok c ->
  lex_generate L = Ok (lex_ctx_text c) /\ ReadLex (lex_ctx_text c) (tables_of c).
Proof.
  intros HL Hq Ec. split; [unfold lex_generate; rewrite Ec; reflexivity|].
  destruct (lexer_tokens tokens L HL) as (_ & TK & _). destruct (lexer_accepting tokens L HL) as (DS & _).
  destruct (lexer_ctx tokens L HL) as (c' & Ec' & CS & CD & CT & _). rewrite Ec in Ec'. injection Ec' as <-.
  apply readlex_ctx; [|apply ssorted_NoDup; exact CS|rewrite CD; apply ssorted_NoDup; exact DS].
  intros [k v] He. apply map_get_iff in He; auto. apply CT in He as ((td & Hk & ->) & _). cbn [fst snd].
  apply TK in Hk as [_ Hin]. apply in_map_iff in Hin as ([td' h] & E & Hin). cbn [fst] in E. subst td'. eapply Hq; eauto.
Qed.

(** The definitions of the committed grammar meet the conditions. *)
Example C42_reads_nonvacuous :
  exists g tokens, grammar_from_ast lisp_ast = Ok g /\ grammar_tokens lisp_regex g = Ok tokens /\
  split_refines (map snd tokens) /\ forall h, In h (map snd tokens) -> productive h.
Proof.
  destruct (grammar_from_ast lisp_ast) as [g| |] eqn:Eg; [|vm_compute in Eg; discriminate Eg..].
  destruct (grammar_tokens lisp_regex g) as [tokens| |] eqn:Et; [|vm_compute in Eg; injection Eg as <-; vm_compute in Et; discriminate Et..].
  exists g, tokens. split; auto. split; auto. vm_compute in Eg; injection Eg as <-. vm_compute in Et. injection Et as <-.
  split; [apply split_b_ok; vm_compute; reflexivity|].
  intros h H. repeat (destruct H as [<-|H]; [apply productive_hb_ok; vm_compute; reflexivity|]). destruct H.
Qed.

(** False for ranges that start beyond the tables: with the single token [U+4E00] and the 5000
    numbers the project generates (lex_gen.rs:353), the Rust lexer finds no token in "a", the
    TypeScript lexer takes "a" for that token. *)
Theorem C42_range_refuted :
  exists tokens L text T input kind, from_tokens tokens = Ok L /\ lex_generate L = Ok text /\ ReadLex text T /\ ascii input /\
  lex L input = Ok [] /\
  ts_lex 5000 (map (fun c => (c, c)) input) T input = LexToks [TTok kind (Some (TLit input)); TTok (tx "EOF") None].
Proof.
  set (tokens := [(TokenDef (tx "x") true None, HLit 19968)]).
  destruct (from_tokens tokens) as [L| |] eqn:EL; [|vm_compute in EL; discriminate EL..].
  assert (Hq : readable tokens) by (intros td h [H|[]]; injection H as <- <-; vm_compute; discriminate).
  destruct (lex_ctx_new L) as [c| |] eqn:EC; [|vm_compute in EL; injection EL as <-; vm_compute in EC; discriminate EC..].
  destruct (ctx_tables tokens L c EL Hq EC) as (H1 & H2).
  exists tokens, L, (lex_ctx_text c), (tables_of c), [97]%N, (tx "x").
  split; auto. split; auto. split; auto. split; [constructor; [lia|constructor]|]. clear H1 H2 Hq.
  vm_compute in EL. injection EL as <-. vm_compute in EC. injection EC as <-.
  split; vm_compute; reflexivity.
Qed.
Print Assumptions C42_range_refuted.

(** False outside ASCII: the Rust lexer slices bytes and panics where the TypeScript lexer counts
    characters. *)
Theorem C42_ascii_refuted :
  exists tokens L text T input us, from_tokens tokens = Ok L /\ lex_generate L = Ok text /\ ReadLex text T /\ fits 5000 L /\
  (forall c, In c input -> (c < 256)%N /\ ~ In c left_out) /\
  lex L input = Panic PSlice /\ ts_lex 5000 (map (fun c => (c, c)) input) T input = LexToks us.
Proof.
  set (tokens := [(TokenDef (tx "x") true None, HLit 233)]).
  destruct (from_tokens tokens) as [L| |] eqn:EL; [|vm_compute in EL; discriminate EL..].
  assert (Hq : readable tokens) by (intros td h [H|[]]; injection H as <- <-; vm_compute; discriminate).
  destruct (lex_ctx_new L) as [c| |] eqn:EC; [|vm_compute in EL; injection EL as <-; vm_compute in EC; discriminate EC..].
  destruct (ctx_tables tokens L c EL Hq EC) as (H1 & H2).
  exists tokens, L, (lex_ctx_text c), (tables_of c), [233]%N, [TTok (tx "x") (Some (TLit [233]%N)); TTok (tx "EOF") None].
  split; auto. split; auto. split; auto. clear H1 H2 Hq.
  vm_compute in EL. injection EL as <-. vm_compute in EC. injection EC as <-.
  split; [|split; [|split; vm_compute; reflexivity]].
  - split; [apply Nat.leb_le; vm_compute; reflexivity|]. split; [apply Nat.leb_le; vm_compute; reflexivity|].
    intros e [<-|[]]. cbn [fst de_label]. lia.
  - intros c [<-|[]]. split; [lia|]. unfold left_out. cbn [In]. intuition lia.
Qed.
Print Assumptions C42_ascii_refuted.

(** Nor need the values agree when the Rust lexer returns: of the token "éé" it keeps the first
    two bytes, "é". The conditions of [C42_any_text_partial] hold. *)
Theorem C42_value_refuted :
  exists tokens L text T input name, from_tokens tokens = Ok L /\ readable tokens /\ lex_generate L = Ok text /\ ReadLex text T /\ fits 5000 L /\
  (forall c, In c input -> map_get c (map (fun c => (c, c)) input) <> None /\ (c <= N.of_nat 5000)%N) /\
  lex L input = Ok [Token name (Some [233]%N)] /\
  ts_lex 5000 (map (fun c => (c, c)) input) T input = LexToks [TTok name (Some (TLit [233; 233]%N)); TTok (tx "EOF") None].
Proof.
  set (tokens := [(TokenDef (tx "x") true None, HConcat [HLit 233; HLit 233])]).
  destruct (from_tokens tokens) as [L| |] eqn:EL; [|vm_compute in EL; discriminate EL..].
  assert (Hq : readable tokens) by (intros td h [H|[]]; injection H as <- <-; vm_compute; discriminate).
  destruct (lex_ctx_new L) as [c| |] eqn:EC; [|vm_compute in EL; injection EL as <-; vm_compute in EC; discriminate EC..].
  destruct (ctx_tables tokens L c EL Hq EC) as (H1 & H2).
  exists tokens, L, (lex_ctx_text c), (tables_of c), [233; 233]%N, (tx "x").
  split; auto. split; auto. split; auto. split; auto. clear H1 H2 Hq.
  vm_compute in EL. injection EL as <-. vm_compute in EC. injection EC as <-.
  split; [|split; [|split; vm_compute; reflexivity]].
  - split; [apply Nat.leb_le; vm_compute; reflexivity|]. split; [apply Nat.leb_le; vm_compute; reflexivity|].
    intros e H. cbn [lx_dfa d_edges] in H. repeat (destruct H as [<-|H]; [cbn [fst de_label]; lia|]). destruct H.
  - intros c [<-|[<-|[]]]; (split; [vm_compute; discriminate|lia]).
Qed.
Print Assumptions C42_value_refuted.

(** The lexer of the committed grammar: a full reading, and an early stop. *)
Definition abc : list (N * N) := map (fun c => (c, c)) (tx "()add 12#").
Example C42_nonvacuous :
  exists g tokens L c, grammar_from_ast lisp_ast = Ok g /\ grammar_tokens lisp_regex g = Ok tokens /\ from_tokens tokens = Ok L /\
  readable tokens /\ fits 200 L /\ own_codes abc /\ lex_ctx_new L = Ok c /\
  ts_lex 200 abc (tables_of c) (tx "(add 12)") =
    LexToks [TTok (tx "(") (Some (TLit (tx "("))); TTok (tx "add") (Some (TLit (tx "add"))); TTok (tx "[1-9]+[0-9]*") (Some (TLit (tx "12")));
             TTok (tx ")") (Some (TLit (tx ")"))); TTok (tx "EOF") None] /\
  ts_lex 200 abc (tables_of c) (tx "(add #") = LexBad 35 5.
Proof.
  destruct (grammar_from_ast lisp_ast) as [g| |] eqn:Eg; [|vm_compute in Eg; discriminate Eg..].
  destruct (grammar_tokens lisp_regex g) as [tokens| |] eqn:Et; [|vm_compute in Eg; injection Eg as <-; vm_compute in Et; discriminate Et..].
  destruct (from_tokens tokens) as [L| |] eqn:EL; [|vm_compute in Eg; injection Eg as <-; vm_compute in Et; injection Et as <-; vm_compute in EL; discriminate EL..].
  destruct (lex_ctx_new L) as [c| |] eqn:EC;
    [|vm_compute in Eg; injection Eg as <-; vm_compute in Et; injection Et as <-; vm_compute in EL; injection EL as <-; vm_compute in EC; discriminate EC..].
  exists g, tokens, L, c. split; auto. split; auto. split; auto.
  vm_compute in Eg; injection Eg as <-. vm_compute in Et. injection Et as <-. split; [|split; [|split; [|split]]].
  - intros td h H. repeat (destruct H as [H|H]; [injection H as <- <-; vm_compute; discriminate|]). destruct H.
  - vm_compute in EL. injection EL as <-. split; [apply Nat.leb_le; reflexivity|]. split; [apply Nat.leb_le; vm_compute; reflexivity|].
    intros e H. cbn [lx_dfa d_edges] in H. repeat (destruct H as [<-|H]; [cbn [fst de_label]; lia|]). destruct H.
  - intros ch v. unfold abc. intros H. apply map_get_In, in_map_iff in H as (x & E & _). congruence.
  - auto.
  - vm_compute in EL. injection EL as <-. vm_compute in EC. injection EC as <-. split; vm_compute; reflexivity.
Qed.
