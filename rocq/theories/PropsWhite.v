(** Properties C64 and C65: white space between tokens. *)
From Verif Require Import Base Regex Nfa NfaProofs Overlap OverlapProofs OverlapLaminar
  Dfa DfaProofs Lex LexSpec LexLoop NfaLive LexNfa LexProofs Utf8Proofs PropsLex WhiteSpace.
From Verif Require Import Grammar GrammarSpec GrammarProofs Table LexGrammar LexGrammarProofs Parse Lalr EndSpec EndProofs Witness PropsEnd.

Local Ltac compute_ok := vm_compute; reflexivity.
Local Ltac all_white := repeat (apply Forall_cons; [unfold white; lia|]); apply Forall_nil.

Lemma plain_no_pos tokens ts : forall ts', map no_pos ts = map no_pos ts' -> map (plain_token tokens) ts = map (plain_token tokens) ts'.
Proof.
  induction ts as [|[[p i] u] ts IH]; intros [|[[p' i'] u'] ts'] E; try discriminate; auto. injection E as -> -> E. simpl. f_equal. auto.
Qed.

(** What the lexer returns for ASCII texts, by its own notions of beginning of a token and token. *)
Lemma lex_live tokens L : from_tokens tokens = Ok L -> exists (lv : list N -> Prop) (ac : list N -> nat -> Prop),
  lv = liveD L /\ (forall w i, ac w i -> lv w) /\ (forall w i j, ac w i -> ac w j -> i = j) /\
  (forall w i, ac w i -> exists h, nth_error (map snd tokens) i = Some h /\ Lang h w) /\
  (forall input ts r, Tokenize lv ac 0 input ts r -> answer tokens L input ts) /\
  (forall input, exists ts r, Tokenize lv ac 0 input ts r).
Proof.
  intros HL. destruct (lex_tokens_live tokens L HL) as (lv & ac & (E & Hl & Hd) & Hs & Ht & _). exists lv, ac.
  split; auto. split; auto. split; auto. split; auto. split.
  - intros input ts r HT. destruct (Ht input) as (ts' & r' & i & HT' & El & _).
    destruct (tokenize_det _ _ Hd _ _ _ _ _ _ HT HT') as [-> ->]. clear HT'. split; auto.
    intros Ha. rewrite El. apply mapM_map. intros [[p j] u] Hx.
    destruct (tokenize_longest _ _ _ _ _ _ HT p j u Hx) as (a & b & Ei & Ep & (_ & H2 & _)). apply token_of_ascii; auto.
    + simpl. exists a, b. auto.
    + simpl. apply Hs in H2 as (h & Hh & _). apply nth_error_lt in Hh. rewrite map_length in Hh. auto.
  - intros input. destruct (Ht input) as (ts & r & i & HT & _). eauto.
Qed.

Lemma white_ascii w : Forall white w -> ascii w.
Proof. intros H. eapply Forall_impl; [|exact H]. intros c [-> | ->]; lia. Qed.

(** ** C64 *)

(** The full statement (white space between tokens can be added, removed or replaced) is false.
    1. [a], [b] and "a b" as a token of its own: one blank or two.
    2. No definition with white space in it: [a], [b] and [abc], on "ab" and "a b": the lexer drops the rest
       of a text that could go on as [abc] (C13).
    3. Words with an accented letter: texts are cut at byte offsets (C14), so that for [b] the white space
       before it is returned. *)
Definition ex_phrase : list (token_def * hir) := [ex_tok [97] (HLit 97); ex_tok [98] (HLit 98); ex_tok [112] (ex_lit [97; 32; 98])]%N.
Definition ex_abc : list (token_def * hir) := [ex_tok [97] (HLit 97); ex_tok [98] (HLit 98); ex_tok [99] (ex_lit [97; 98; 99])]%N.
Definition ex_accent : list (token_def * hir) := [ex_tok [119] (HRep OneOrMore (HClass [(97, 122); (233, 233)]))]%N.

Lemma written_white_free (tokens : list (token_def * hir)) : forallb (fun r => negb (matches r 10) && negb (matches r 32))%N (flat_map written (map snd tokens)) = true ->
  white_free (map snd tokens).
Proof.
  intros H r c Hr Hc Hrc. rewrite forallb_forall in H. specialize (H r Hr). apply andb_true_iff in H as [H1 H2].
  rewrite !negb_true_iff in *. assert (Hm : matches r c = true) by (apply matches_inr; exact Hrc). destruct Hc as [-> | ->]; congruence.
Qed.

Theorem C64_white_space_refuted :
  (exists tokens L a b w w', from_tokens tokens = Ok L /\ ascii (a ++ b) /\
     Forall white w /\ Forall white w' /\ w <> [] /\ w' <> [] /\ lex L (a ++ w ++ b) <> lex L (a ++ w' ++ b)) /\
  (exists tokens L a b w x y, from_tokens tokens = Ok L /\ white_free (map snd tokens) /\ ascii (a ++ b) /\ Forall white w /\
     lex L (a ++ b) = Ok [x] /\ lex L (a ++ w ++ b) = Ok [x; y]) /\
  (exists tokens L a b w w', from_tokens tokens = Ok L /\ white_free (map snd tokens) /\
     Forall white w /\ Forall white w' /\ w <> [] /\ w' <> [] /\ lex L (a ++ w ++ b) <> lex L (a ++ w' ++ b)).
Proof.
  split; [|split].
  - exists ex_phrase. eexists. exists [97]%N, [98]%N, [32]%N, [32; 32]%N. split; [compute_ok|].
    split; [repeat constructor; lia|]. split; [all_white|]. split; [all_white|].
    split; [discriminate|]. split; [discriminate|]. vm_compute. discriminate.
  - exists ex_abc. eexists. exists [97]%N, [98]%N, [32]%N. eexists. eexists. split; [compute_ok|].
    split; [apply written_white_free; compute_ok|]. split; [repeat constructor; lia|].
    split; [all_white|]. split; compute_ok.
  - exists ex_accent. eexists. exists [233; 97]%N, [98]%N, [32]%N, [10]%N. split; [compute_ok|].
    split; [apply written_white_free; compute_ok|].
    split; [all_white|]. split; [all_white|].
    split; [discriminate|]. split; [discriminate|]. vm_compute. discriminate.
Qed.
Print Assumptions C64_white_space_refuted.

(** When no definition has white space in it, for ASCII texts: where there is white space, how much and
    which makes no difference, whatever is around it, also in texts that are not read to the end.
    Missing: other texts, and definitions with white space. *)
Theorem C64_more_space_partial :
  forall tokens L, from_tokens tokens = Ok L -> white_free (map snd tokens) ->
  forall a b, ascii (a ++ b) -> forall w w', Forall white w -> Forall white w' -> w <> [] -> w' <> [] ->
  lex L (a ++ w ++ b) = lex L (a ++ w' ++ b).
Proof.
  intros tokens L HL Hwf a b Hab w w' Hw Hw' Hne Hne'.
  destruct (lex_live tokens L HL) as (lv & ac & -> & Hl & Hd & _ & Hans & Htot).
  destruct w as [|c w]; [congruence|]. destruct w' as [|c' w']; [congruence|].
  destruct (Htot (a ++ (c :: w) ++ b)) as (ts & r & HT).
  destruct (tk_more (liveD L) ac Hl (live_no_white tokens L HL Hwf) _ _ _ _ HT a c w c' w' b eq_refl Hw Hw' 0) as (ts' & r' & HT' & E).
  apply Forall_app in Hab as [Ha Hb].
  rewrite (proj2 (Hans _ _ _ HT)), (proj2 (Hans _ _ _ HT')).
  - f_equal. apply plain_no_pos. auto.
  - apply Forall_app. split; auto. apply Forall_app. split; auto. apply white_ascii; auto.
  - apply Forall_app. split; auto. apply Forall_app. split; auto. apply white_ascii; auto.
Qed.
Print Assumptions C64_more_space_partial.

(** And white space can be added anywhere between two tokens, before the first, and after the last one
    when the text is read to the end. *)
Theorem C64_insert_partial :
  forall tokens L, from_tokens tokens = Ok L -> white_free (map snd tokens) ->
  forall input, ascii input -> exists ts rest, answer tokens L input ts /\ Layout 0 input (map drop_idx ts) rest /\
  forall a b ts1 ts2, input = a ++ b -> ts = ts1 ++ ts2 ->
    (forall p i u, In (p, i, u) ts1 -> p + length u <= length a) ->
    (forall p i u, In (p, i, u) ts2 -> length a <= p) ->
    ts2 <> [] \/ rest = [] ->
  forall w, Forall white w -> lex L (a ++ w ++ b) = lex L input.
Proof.
  intros tokens L HL Hwf input Hi. destruct (lex_live tokens L HL) as (lv & ac & -> & Hl & Hd & _ & Hans & Htot).
  destruct (Htot input) as (ts & r & HT). exists ts, r. split; [eapply Hans; eauto|]. split; [eapply tokenize_layout; eauto|].
  intros a b ts1 ts2 Ei Et H1 H2 Hr w Hw.
  destruct (tk_insert (liveD L) ac Hl (live_no_white tokens L HL Hwf) w Hw _ _ _ _ HT a b ts1 ts2 Ei Et H1 H2 Hr 0) as (ts' & r' & HT' & E).
  rewrite (proj2 (Hans _ _ _ HT)), (proj2 (Hans _ _ _ HT')); auto.
  - f_equal. apply plain_no_pos. auto.
  - rewrite Ei in Hi. apply Forall_app in Hi as [Ha Hb]. apply Forall_app. split; auto. apply Forall_app. split; auto. apply white_ascii; auto.
Qed.
Print Assumptions C64_insert_partial.

(** For all texts, ASCII or not: the same names of tokens in the same order. *)
Lemma tokens_names tokens input ts out : mapM (LexProofs.token_of tokens input) ts = Ok out ->
  map tk_name out = map (fun x => tk_name (plain_token tokens x)) ts.
Proof.
  revert out. induction ts as [|[[p i] u] ts IH]; intros out E; cbn [mapM] in E; [injection E as <-; auto|].
  unfold LexProofs.token_of in E at 1. cbn [map plain_token]. destruct (nth_error tokens i) as [[td h]|]; [|discriminate].
  destruct (td_with_val td).
  - destruct (byte_slice input p (p + length u)); cbn [bind] in E; try discriminate.
    destruct (mapM (LexProofs.token_of tokens input) ts) as [o| |] eqn:Eo; try discriminate. injection E as <-. simpl. f_equal. auto.
  - cbn [bind] in E. destruct (mapM (LexProofs.token_of tokens input) ts) as [o| |] eqn:Eo; try discriminate. injection E as <-. simpl. f_equal. auto.
Qed.

Theorem C64_any_text_partial :
  forall tokens L, from_tokens tokens = Ok L -> white_free (map snd tokens) ->
  forall a b w w', Forall white w -> Forall white w' -> w <> [] -> w' <> [] ->
  forall ts ts', lex L (a ++ w ++ b) = Ok ts -> lex L (a ++ w' ++ b) = Ok ts' -> map tk_name ts = map tk_name ts'.
Proof.
  intros tokens L HL Hwf a b w w' Hw Hw' Hne Hne' out out' E1 E2.
  destruct (lex_live tokens L HL) as (lv & ac & -> & Hl & Hd & _ & Hans & Htot).
  destruct w as [|c w]; [congruence|]. destruct w' as [|c' w']; [congruence|].
  destruct (Htot (a ++ (c :: w) ++ b)) as (ts & r & HT).
  destruct (tk_more (liveD L) ac Hl (live_no_white tokens L HL Hwf) _ _ _ _ HT a c w c' w' b eq_refl Hw Hw' 0) as (ts' & r' & HT' & E).
  rewrite (proj1 (Hans _ _ _ HT)) in E1. rewrite (proj1 (Hans _ _ _ HT')) in E2.
  rewrite (tokens_names _ _ _ _ E1), (tokens_names _ _ _ _ E2). rewrite <- !(map_map (plain_token tokens) tk_name). f_equal.
  apply plain_no_pos. auto.
Qed.
Print Assumptions C64_any_text_partial.

Lemma convert_names m ts : forall ts', map tk_name ts = map tk_name ts' ->
  (let* r := mapM (token_with_idx m) ts in Ok (map snd r)) = (let* r := mapM (token_with_idx m) ts' in Ok (map snd r)).
Proof.
  induction ts as [|t ts IH]; intros [|t' ts'] E; try discriminate; auto. injection E as E1 E. specialize (IH ts' E). cbn [mapM].
  unfold token_with_idx at 1 3. rewrite E1. destruct (map_get (tk_name t') m) as [d|]; auto. destruct (td_idx d); auto. cbn [bind].
  destruct (mapM (token_with_idx m) ts), (mapM (token_with_idx m) ts'); cbn [bind map snd] in *; congruence.
Qed.

(** The same of parsing: for a grammar whose literals and regexes have no white space in them. The result is the
    same for ASCII texts, and for others unless the lexer panics on one of them. *)
Theorem C64_parse_partial :
  forall parse hash g l, lalr_new parse hash g = Ok l ->
  (forall x h, In x (lex_syms g) -> sym_hir parse x = Some h -> white_free [h]) ->
  forall a b w w', Forall white w -> Forall white w' -> w <> [] -> w' <> [] ->
  (ascii (a ++ b) -> lalr_parse l (a ++ w ++ b) = lalr_parse l (a ++ w' ++ b)) /\
  (lalr_parse l (a ++ w ++ b) = lalr_parse l (a ++ w' ++ b) \/
   lex (l_lexer l) (a ++ w ++ b) = Panic PSlice \/ lex (l_lexer l) (a ++ w' ++ b) = Panic PSlice).
Proof.
  intros parse hash g l Hl Hwf a b w w' Hw Hw' Hne Hne'. destruct (new_parts _ _ _ _ Hl) as (_ & HL & _).
  destruct (from_grammar_inv _ _ _ HL) as (tokens & Et & EL). unfold lalr_parse.
  assert (Hwf' : white_free (map snd tokens)).
  { intros r c Hr Hc. apply in_flat_map in Hr as (h & Hh & Hr). apply in_map_iff in Hh as ([td h'] & E & Hin). simpl in E. subst h'.
    apply (grammar_tokens_from_spec _ _ _ _ Et) in Hin as (j & x & n & Hj & Hn & _ & Hx).
    apply (Hwf x h); auto; [|simpl; rewrite app_nil_r; auto]. apply filter_In. split; [eapply nth_error_In, Hj|].
    destruct x; try discriminate; reflexivity. }
  split.
  - intros Hab. rewrite (C64_more_space_partial tokens _ EL Hwf') with (w' := w'); auto.
  - assert (Hx : forall s, (exists ts, lex (l_lexer l) s = Ok ts) \/ lex (l_lexer l) s = Panic PSlice).
    { intros s. destruct (C14_value_exact tokens _ EL s) as (? & ? & _ & _ & [(E & _)|(o & E & _)]); eauto. }
    destruct (Hx (a ++ w ++ b)) as [(ts & E1)|E1]; auto. destruct (Hx (a ++ w' ++ b)) as [(ts' & E2)|E2]; auto.
    left. pose proof (C64_any_text_partial tokens _ EL Hwf' a b w w' Hw Hw' Hne Hne' _ _ E1 E2) as E. rewrite E1, E2. cbn [bind]. unfold convert_tokens.
    pose proof (convert_names (def_map (l_lexer l)) _ _ E) as Ec.
    destruct (mapM (token_with_idx (def_map (l_lexer l))) ts), (mapM (token_with_idx (def_map (l_lexer l))) ts'); cbn [bind] in *; try congruence.
    rewrite !map_app. congruence.
Qed.
Print Assumptions C64_parse_partial.

(** Met by the example definitions of C05, and by the tokens of "if x" between which there is room. *)
Example C64_nonvacuous : exists L ts, from_tokens ex_tokens = Ok L /\ white_free (map snd ex_tokens) /\
  lex L [105; 102; 32; 120]%N = Ok ts /\ length ts = 2 /\ lex L [32; 105; 102; 10; 10; 120; 32]%N = Ok ts.
Proof.
  eexists. eexists. split; [compute_ok|]. split; [apply written_white_free; compute_ok|]. repeat split; compute_ok.
Qed.

Example C64_parse_nonvacuous : exists g l ps, lalr_new no_regex ehash g = Ok l /\
  (forall x h, In x (lex_syms g) -> sym_hir no_regex x = Some h -> white_free [h]) /\
  lalr_parse l [120; 32; 43; 32; 120]%N = Ok ps /\ lalr_parse l [120; 10; 32; 43; 10; 10; 120]%N = Ok ps.
Proof.
  destruct (grammar_from_ast w_expr) as [g| |] eqn:Eg; [|vm_compute in Eg; discriminate Eg..].
  destruct (lalr_new no_regex ehash g) as [l| |] eqn:El; [|vm_compute in Eg; injection Eg as <-; vm_compute in El; discriminate El..].
  exists g, l. vm_compute in Eg. injection Eg as <-. vm_compute in El. injection El as <-.
  eexists. split; [compute_ok|]. split; [|split; compute_ok].
  intros x h Hx. vm_compute in Hx. destruct Hx as [<-|[<-|[]]]; intros E; vm_compute in E; injection E as <-;
    apply (written_white_free [(TokenDef [] true None, _)]); compute_ok.
Qed.

(** ** C65 *)

(** The full statement ([a], white space and [b] give the tokens of [a] and then those of [b]) is false.
    1. [a], [b] and "a b" as a token.
    2. [a], [b] and [abc]: "ab" alone is [a], the rest is dropped; before a blank it is [a] and [b].
    3. A text that is not read to the end: nothing after it is.
    4. Words with an accented letter (C14). *)
Theorem C65_separate_refuted :
  (exists tokens L a b c x y, from_tokens tokens = Ok L /\ ascii (a ++ b) /\ white c /\
     lex L a = Ok x /\ lex L b = Ok y /\ lex L (a ++ c :: b) <> Ok (x ++ y)) /\
  (exists tokens L a b c x y t, from_tokens tokens = Ok L /\ white_free (map snd tokens) /\ ascii (a ++ b) /\ white c /\
     lex L a = Ok x /\ lex L b = Ok y /\ lex L (a ++ c :: b) = Ok (x ++ t :: y)) /\
  (exists tokens L a b c x y, from_tokens tokens = Ok L /\ white_free (map snd tokens) /\ ascii (a ++ b) /\ white c /\
     lex L (a ++ [c]) = Ok x /\ lex L b = Ok y /\ y <> [] /\ lex L (a ++ c :: b) = Ok x) /\
  (exists tokens L a b c x y, from_tokens tokens = Ok L /\ white_free (map snd tokens) /\ white c /\
     lex L (a ++ [c]) = Ok x /\ lex L b = Ok y /\ Layout 0 (a ++ [c]) [(0, a)] [] /\ lex L (a ++ c :: b) <> Ok (x ++ y)).
Proof.
  split; [|split; [|split]].
  - exists ex_phrase. eexists. exists [97]%N, [98]%N, 32%N. eexists. eexists. split; [compute_ok|]. split; [repeat constructor; lia|].
    split; [right; auto|]. split; [compute_ok|]. split; [compute_ok|]. vm_compute. discriminate.
  - exists ex_abc. eexists. exists [97; 98]%N, [97]%N, 32%N. eexists. eexists. eexists. split; [compute_ok|].
    split; [apply written_white_free; compute_ok|]. split; [repeat constructor; lia|].
    split; [right; auto|]. split; [compute_ok|]. split; [compute_ok|]. compute_ok.
  - exists ex_abc. eexists. exists [97; 63]%N, [97]%N, 32%N. eexists. eexists. split; [compute_ok|].
    split; [apply written_white_free; compute_ok|]. split; [repeat constructor; lia|].
    split; [right; auto|]. split; [compute_ok|]. split; [compute_ok|]. split; [discriminate|]. compute_ok.
  - exists ex_accent. eexists. exists [233; 97]%N, [98]%N, 32%N. eexists. eexists. split; [compute_ok|].
    split; [apply written_white_free; compute_ok|]. split; [right; auto|]. split; [compute_ok|]. split; [compute_ok|].
    split; [|vm_compute; discriminate]. apply LayTok; [discriminate|].
    apply LaySkip; [right; auto|]. apply LayEnd.
Qed.
Print Assumptions C65_separate_refuted.

Lemma tokenize_rest (live : list N -> Prop) (acc : list N -> nat -> Prop) pos s ts r : (forall w i, acc w i -> live w) -> (forall w, live w -> Forall (fun c => ~ white c) w) ->
  Tokenize live acc pos s ts r -> forall a c, s = a ++ [c] -> white c -> r = [] \/ exists d r', r = d :: r' /\ ~ white d.
Proof.
  intros Hl Hw. induction 1 as [pos|pos u v i ts r Hu Hn H IH|pos u v i Hu Hn|pos d v ts r Hd Hn H IH|pos d v Hn Hd]; intros a c Es Hc; auto.
  - destruct (before_white u v a [] [] c) as (x & ->); auto; [apply Hw; eapply Hl; apply Hu|].
    rewrite <- app_assoc in Es. apply app_inv_head in Es. eapply IH; eauto.
  - exfalso. rewrite Es in Hn. eapply white_dead; eauto.
  - destruct a as [|e a]; injection Es as -> ->; [inversion H; subst; auto|eapply IH; eauto].
    + match goal with T : longest _ ?u _ _ |- _ => destruct T as (T & _); destruct u; [congruence|discriminate] end.
    + match goal with T : longest _ ?u _ _ |- _ => destruct T as (T & _); destruct u; [congruence|discriminate] end.
  - right. exists d, v. split; auto. intros Hwd. apply Hd. eapply white_skippable; eauto.
Qed.

Lemma layout_rest pos s ts d r : Layout pos s ts (d :: r) -> ~ white d -> ~ Layout pos s ts [].
Proof.
  intros H Hd. remember (d :: r) as r0 eqn:Er. induction H as [pos r0|pos u v ts r0 Hu H IH|pos c v ts r0 Hc H IH]; intros H'.
  - subst r0. inversion H'; subst; auto.
  - inversion H' as [| |]; subst.
    + match goal with E : _ ++ _ = u ++ v |- _ => apply app_inv_head in E; subst end. apply IH; auto.
    + match goal with T : Layout (S pos) _ _ _ |- _ => destruct (layout_pos _ _ _ _ T pos u (or_introl eq_refl)) as (? & ? & _ & ? & _); lia end.
  - inversion H' as [| |]; subst; [|apply IH; auto].
    destruct (layout_pos _ _ _ _ H pos u (or_introl eq_refl)) as (? & ? & _ & ? & _); lia.
Qed.

(** When no definition has white space in it, for ASCII texts: what comes after white space is read as if it
    were a text of its own, provided that what comes before is read to the end; otherwise it is not read.
    Missing: other texts, and definitions with white space. *)
Theorem C65_separate_partial :
  forall tokens L, from_tokens tokens = Ok L -> white_free (map snd tokens) ->
  forall a c, ascii a -> white c -> exists ts rest,
  answer tokens L (a ++ [c]) ts /\ Layout 0 (a ++ [c]) (map drop_idx ts) rest /\
  (rest = [] \/ ~ Layout 0 (a ++ [c]) (map drop_idx ts) []) /\
  forall b, ascii b ->
    (rest = [] -> exists x y, lex L (a ++ [c]) = Ok x /\ lex L b = Ok y /\ lex L (a ++ c :: b) = Ok (x ++ y)) /\
    (rest <> [] -> lex L (a ++ c :: b) = lex L (a ++ [c])).
Proof.
  intros tokens L HL Hwf a c Ha Hc. destruct (lex_live tokens L HL) as (lv & ac & -> & Hl & Hd & _ & Hans & Htot).
  pose proof (live_no_white tokens L HL Hwf) as Hlw.
  destruct (Htot (a ++ [c])) as (ts & r & HT). exists ts, r. split; [eapply Hans; eauto|].
  pose proof (tokenize_layout _ _ _ _ _ _ HT) as Hlay. split; auto.
  destruct (tokenize_rest _ _ _ _ _ _ Hl Hlw HT a c eq_refl Hc) as [Hr|Hr]; (split; [|intros b Hb]).
  - auto.
  - split; [|congruence]. intros _. destruct (Htot b) as (ts2 & r2 & HT2).
    destruct (tk_concat (liveD L) ac Hl Hlw _ _ _ _ HT a c eq_refl Hc b 0) as [H1 _].
    destruct (H1 Hr _ _ _ HT2) as (ts' & HT' & E). exists (map (plain_token tokens) ts), (map (plain_token tokens) ts2).
    assert (Hac : ascii [c]) by (apply white_ascii; auto).
    split; [apply (proj2 (Hans _ _ _ HT)), Forall_app; auto|]. split; [apply (proj2 (Hans _ _ _ HT2)); auto|].
    rewrite (proj2 (Hans _ _ _ HT')); [|change (c :: b) with ([c] ++ b); apply Forall_app; split; auto; apply Forall_app; auto].
    rewrite <- map_app. f_equal. apply plain_no_pos. auto.
  - destruct Hr as (d & r' & -> & Hwd). right. eapply layout_rest; eauto.
  - split; [destruct Hr as (d & r' & -> & _); discriminate|]. intros Hne.
    destruct (tk_concat (liveD L) ac Hl Hlw _ _ _ _ HT a c eq_refl Hc b 0) as [_ H2].
    destruct (H2 Hne) as (ts' & r' & HT' & _ & E). assert (Hac : ascii [c]) by (apply white_ascii; auto).
    rewrite (proj2 (Hans _ _ _ HT')); [|change (c :: b) with ([c] ++ b); apply Forall_app; split; auto; apply Forall_app; auto].
    rewrite (proj2 (Hans _ _ _ HT)) by (apply Forall_app; auto). f_equal. apply plain_no_pos. auto.
Qed.
Print Assumptions C65_separate_partial.

(** Something after [s] is seen: some text changes the result when it is put there. *)
Definition goes_on (L : lexer) (s : list N) : Prop := exists b, ascii b /\ lex L (s ++ b) <> lex L s.

(** And so for any number of words, each followed by white space. *)
Theorem C65_words_partial :
  forall tokens L, from_tokens tokens = Ok L -> white_free (map snd tokens) ->
  forall ws b, Forall (fun wc => ascii (fst wc) /\ white (snd wc) /\ goes_on L (fst wc ++ [snd wc])) ws -> ascii b ->
  exists xs y, Forall2 (fun wc x => lex L (fst wc ++ [snd wc]) = Ok x) ws xs /\ lex L b = Ok y /\
    lex L (concat (map (fun wc => fst wc ++ [snd wc]) ws) ++ b) = Ok (concat xs ++ y).
Proof.
  intros tokens L HL Hwf ws b Hws Hb. induction Hws as [|[w c] ws (Hw & Hc & Hall) Hws IH]; cbn [fst snd map concat] in *.
  - destruct (lex_live tokens L HL) as (lv & ac & _ & _ & _ & _ & Hans & Htot). destruct (Htot b) as (ts & r & HT).
    exists [], (map (plain_token tokens) ts). split; auto. pose proof (proj2 (Hans _ _ _ HT) Hb). auto.
  - destruct IH as (xs & y & HF & Ey & E). destruct (C65_separate_partial tokens L HL Hwf w c Hw Hc) as (ts & rest & Hans & Hlay & Hr & H).
    assert (Hrest : rest = []).
    { destruct Hall as (b' & Hb' & Hne). rewrite <- app_assoc in Hne. destruct rest; auto. exfalso. apply Hne. apply (H b' Hb'). discriminate. }
    assert (Hasc : ascii (concat (map (fun wc => fst wc ++ [snd wc]) ws) ++ b)).
    { apply Forall_app. split; auto. clear - Hws. induction Hws as [|[w c] ws (Hw & Hc & _) Hws IH]; simpl in *; [constructor|].
      apply Forall_app. split; auto. apply Forall_app. split; auto. apply white_ascii. auto. }
    destruct (proj1 (H _ Hasc) Hrest) as (x & y' & E1 & E2 & E3). rewrite E in E2. injection E2 as <-.
    exists (x :: xs), y. split; [constructor; auto|]. split; auto. rewrite <- !app_assoc. simpl. rewrite <- app_assoc in *. auto.
Qed.
Print Assumptions C65_words_partial.

Example C65_nonvacuous : exists L, from_tokens ex_tokens = Ok L /\ white_free (map snd ex_tokens) /\
  Forall (fun wc => ascii (fst wc) /\ white (snd wc) /\ goes_on L (fst wc ++ [snd wc])) [([105; 102], 32); ([120], 10)]%N /\
  exists x1 x2 y, lex L [105; 102; 32]%N = Ok [x1] /\ lex L [120; 10]%N = Ok [x2] /\ lex L [105; 102]%N = Ok [y] /\
    lex L [105; 102; 32; 120; 10; 105; 102]%N = Ok [x1; x2; y].
Proof.
  eexists. split; [compute_ok|]. split; [apply written_white_free; compute_ok|]. split.
  - repeat apply Forall_cons; try apply Forall_nil; (split; [repeat constructor|split; [unfold white; simpl; lia|]]);
      (exists [120]%N; split; [repeat constructor|vm_compute; discriminate]).
  - eexists. eexists. eexists. repeat split; compute_ok.
Qed.
