(** Property C67: what is needed for the files to be generated. *)
From Coq Require Import String.
From Verif Require Import Base Text Regex Nfa NfaProofs Dfa Lex LexProofs Grammar GrammarSpec GrammarProofs First FirstProofs Item ItemSpec ItemProofs Table TableSpec
  LexGrammar LexGrammarProofs Lalr LexGen LexGenProofs LexGenLexer EndProofs ParseGen ParseGenProofs ParseGenFile GrammarFile Witness
  Lisp PropsRegex PropsLex PropsLexGen PropsItem PropsTable PropsGrammarFile.
Local Open Scope list_scope.

(** ** Specification *)

(** A symbol of a body as written: every name given, no name inside a name (around EOF it does not matter),
    no epsilon. *)
Fixpoint all_named (x : isym) : Prop := match x with INamed (Some _) y => all_named y | INamed None _ => False | _ => True end.
Definition one_name (x : isym) : Prop := match x with INamed _ (INamed _ _) => False | _ => True end.
Definition can_write (x : isym) : Prop := all_named x /\ lower x <> SEps /\ (one_name x \/ lower x = SEof).
(** The symbols of a list of rules. *)
Definition occurs (ast : list aprod) (x : isym) : Prop := exists p b, In p ast /\ In b (ap_bodies p) /\ In x (ab_syms b).

(** ** Proofs *)

Lemma mapM_each {A B} (f : A -> res B) l : forall r, mapM f l = Ok r -> forall x, In x l -> exists y, f x = Ok y.
Proof.
  induction l as [|a l IH]; intros r H x Hx; [destruct Hx|]. cbn [mapM] in H. apply bind_ok in H as (y & Ey & H). apply bind_ok in H as (ys & Es & _).
  destruct Hx as [<-|Hx]; eauto.
Qed.
Lemma enum_in {A} (l : list A) x : In x l -> exists i, In (i, x) (enum l).
Proof.
  intros H. apply In_nth_error in H as [i Hi]. exists i. unfold enum.
  assert (G : forall k, In (k + i, x) (combine (seq k (length l)) l)).
  { revert i Hi. induction l as [|a l IH]; intros [|i] Hi k; try discriminate; simpl in *.
    - injection Hi as ->. left. f_equal. lia.
    - right. replace (k + S i) with (S k + i) by lia. apply IH, Hi. }
  apply (G 0).
Qed.

(** One symbol as a parameter. *)
Lemma input_symbol_iff x : (exists o, from_input_symbol x = Ok o) <-> all_named x.
Proof.
  induction x as [s|[n|] ty IH|s|s| |]; cbn; try (split; eauto; fail).
  - rewrite <- IH. split; [intros (o & E); apply bind_ok in E as (p & E & _); eauto|intros (o & ->); cbn; eauto].
  - split; [intros (o & E); discriminate|tauto].
Qed.
Lemma input_symbol_none x o : from_input_symbol x = Ok o -> (o = None <-> lower x = SEps \/ lower x = SEof).
Proof.
  revert o. induction x as [s|[n|] ty IH|s|s| |]; cbn; intros o E; try (injection E as <-; split; [intros H; discriminate H || auto|intros [H|H]; discriminate H || auto]; fail).
  - apply bind_ok in E as (p & E & H). injection H as <-. rewrite <- (IH _ E). destruct p; split; congruence.
  - discriminate.
Qed.
Lemma input_symbol_named x n q : from_input_symbol x = Ok (Some (PNamed n q)) -> exists n' y, x = INamed (Some n') y.
Proof. destruct x as [s|[n'|] ty|s|s| |]; cbn; intros E; try discriminate; eauto. Qed.
Lemma checks_iff idx i p : (exists r, checks idx i p = Ok r) <-> forall n m q, p <> PNamed n (PNamed m q).
Proof.
  destruct p as [n [m q|s|s|s]|s|s|s]; cbn; split; try (intros _ ? ? ?; discriminate); eauto.
  - intros (r & E). discriminate.
  - intros H. destruct (H n m q eq_refl).
Qed.
Lemma nested_iff x p : from_input_symbol x = Ok (Some p) -> ((forall n m q, p <> PNamed n (PNamed m q)) <-> one_name x).
Proof.
  destruct x as [s|[n|] ty|s|s| |]; cbn [from_input_symbol]; intros E; try discriminate; try (injection E as <-; cbn; split; auto; discriminate).
  apply bind_ok in E as ([q|] & E & H); [|discriminate H]. injection H as <-. destruct ty as [s|[m|] ty|s|s| |]; cbn [from_input_symbol] in E; try discriminate;
    try (injection E as <-; cbn; split; auto; discriminate).
  apply bind_ok in E as ([q'|] & E & H); [|discriminate H]. injection H as <-. cbn. split; [|tauto]. intros H. destruct (H n m q' eq_refl).
Qed.

Lemma params_iff l : (exists ps, params_of l = Ok ps) <-> Forall all_named l.
Proof.
  induction l as [|x l IH]; cbn [params_of]; [split; eauto|]. rewrite Forall_cons_iff, <- IH, <- input_symbol_iff. split.
  - intros (ps & E). apply bind_ok in E as (o & E & H). apply bind_ok in H as (qs & E' & _). eauto.
  - intros [(o & ->) (ps & ->)]. cbn. eauto.
Qed.
Lemma params_in l : forall ps, params_of l = Ok ps -> forall p, In p ps <-> exists x, In x l /\ from_input_symbol x = Ok (Some p).
Proof.
  induction l as [|x l IH]; cbn [params_of]; intros ps E p; [injection E as <-; split; [intros []|intros (x & [] & _)]|].
  apply bind_ok in E as (o & E & H). apply bind_ok in H as (qs & E' & H). injection H as <-. specialize (IH _ E' p). destruct o as [q|]; cbn [In].
  - rewrite IH. split.
    + intros [<-|(y & Hy & Ey)]; eauto.
    + intros (y & [<-|Hy] & Ey); [left; congruence|eauto].
  - rewrite IH. split; [intros (y & Hy & Ey); eauto|]. intros (y & [<-|Hy] & Ey); [congruence|eauto].
Qed.
Lemma all_checks_iff idx l : forall i, (exists r, all_checks idx i l = Ok r) <-> Forall (fun p => forall n m q, p <> PNamed n (PNamed m q)) l.
Proof.
  induction l as [|p l IH]; intros i; cbn [all_checks]; [split; eauto|]. rewrite Forall_cons_iff, <- (IH (S i)), <- (checks_iff idx i). split.
  - intros (r & E). apply bind_ok in E as ([c e] & E & H). apply bind_ok in H as ([cs es] & E' & _). eauto.
  - intros [([c e] & ->) ([cs es] & ->)]. cbn. eauto.
Qed.
Lemma gaction_iff a : (exists t, gaction_text a = Ok t) <-> Forall (fun p => forall n m q, p <> PNamed n (PNamed m q)) (ga_inputs a).
Proof.
  rewrite <- (all_checks_iff (ga_idx a) _ 1). unfold gaction_text, popped_values, validate_params. split.
  - intros (t & E). apply bind_ok in E as (p & E & _). apply bind_ok in E as (v & E & _). apply bind_ok in E as (r & E & _). eauto.
  - intros ([cs es] & ->). cbn. eauto.
Qed.

Lemma gactions_iff ast : (exists l, gactions ast = Ok l) <-> forall x, occurs ast x -> all_named x.
Proof.
  unfold gactions. split.
  - intros (l & E) x (p & b & Hp & Hb & Hx).
    destruct (enum_in (all_bodies ast) (ap_name p, b)) as [i Hi]; [apply in_flat_map; exists p; split; auto; apply in_map_iff; eauto|].
    destruct (mapM_each _ _ _ E _ Hi) as (y & Ey). apply bind_ok in Ey as (ps & Eps & _). cbn [snd] in Eps.
    assert (H : Forall all_named (ab_syms b)) by (apply params_iff; eauto). rewrite Forall_forall in H. auto.
  - intros H. apply mapM_total. intros [i [n b]] Hin. apply in_enum, in_all_bodies in Hin as (p & Hp & _ & Hb). cbn [fst snd] in *.
    destruct (proj2 (params_iff (ab_syms b))) as (ps & ->); [|cbn; eauto]. apply Forall_forall. intros x Hx. apply H. exists p, b. auto.
Qed.

Lemma acts_iff ast l : gactions ast = Ok l ->
  ((exists r, mapM gaction_text l = Ok r) <-> forall x, occurs ast x -> one_name x \/ lower x = SEof \/ lower x = SEps).
Proof.
  intros E. unfold gactions in E. split.
  - intros (r & Er) x (p & b & Hp & Hb & Hx).
    destruct (enum_in (all_bodies ast) (ap_name p, b)) as [i Hi]; [apply in_flat_map; exists p; split; auto; apply in_map_iff; eauto|].
    destruct (mapM_each _ _ _ E _ Hi) as (a & Ea). assert (Hal : In a l) by (apply (mapM_In _ _ _ E); eauto).
    apply bind_ok in Ea as (ps & Eps & Ea). cbn [fst snd] in *. injection Ea as <-.
    destruct (mapM_each _ _ _ Er _ Hal) as (t & Et). assert (Ha : exists t, gaction_text (GAction (ap_name p) (1 + i) (ab_fn b) ps) = Ok t) by eauto.
    apply gaction_iff in Ha. cbn [ga_inputs] in Ha. rewrite Forall_forall in Ha.
    assert (Hn : Forall all_named (ab_syms b)) by (apply params_iff; eauto). rewrite Forall_forall in Hn.
    destruct (proj2 (input_symbol_iff x) (Hn _ Hx)) as ([q|] & Eq).
    + left. apply (nested_iff x q Eq). apply Ha. apply (params_in _ _ Eps). eauto.
    + right. pose proof (proj1 (input_symbol_none x None Eq) eq_refl). tauto.
  - intros H. apply mapM_total. intros a Ha. apply (mapM_In _ _ _ E) in Ha as ([i [n b]] & Hin & Ea). apply in_enum, in_all_bodies in Hin as (p & Hp & _ & Hb).
    cbn [fst snd] in *. apply bind_ok in Ea as (ps & Eps & Ea). injection Ea as <-. apply gaction_iff. cbn [ga_inputs]. apply Forall_forall.
    intros q Hq. apply (params_in _ _ Eps) in Hq as (x & Hx & Eq). apply (nested_iff x q Eq).
    destruct (H x) as [H1|H1]; auto; [exists p, b; auto|]. assert (Hb' : Some q = None) by (apply (input_symbol_none x _ Eq); tauto). discriminate.
Qed.

Lemma tokens_iff ast g : grammar_from_ast ast = Ok g -> ((exists r, tokens_text g = Ok r) <-> forall x, occurs ast x -> lower x <> SEps).
Proof.
  intros Hg. destruct (grammar_from_ast_ok _ _ Hg) as (st & _ & W & _ & Ep). destruct (wg_tokens _ _ W) as (l & El & _ & Hl). unfold tokens_text. split.
  - intros (r & E) x (p & b & Hp & Hb & Hx) Hs. apply bind_ok in E as (ts & E & _).
    assert (Hin : In SEps (g_tokens g)).
    { rewrite El. right. apply Hl. exists (from_ast p b). split; [rewrite Ep; right; apply in_flat_map; exists p; split; auto; apply in_map; auto|].
      cbn [from_ast p_syms]. rewrite <- Hs. apply in_map. exact Hx. }
    apply enum_in in Hin as [i Hi]. destruct (mapM_each _ _ _ E _ Hi) as (y & Ey). discriminate Ey.
  - intros H. destruct (mapM_total token_text (enum (g_tokens g))) as (ts & ->); [|cbn; eauto].
    intros [i x] Hin. apply in_enum in Hin. rewrite El in Hin. destruct x as [s|s|s| |]; unfold token_text; cbn [fst snd]; eauto. exfalso.
    destruct Hin as [Hin|Hin]; [discriminate|]. apply Hl in Hin as (p & Hp & Hx). rewrite Ep in Hp. destruct Hp as [<-|Hp]; [destruct Hx as [Hx|[]]; discriminate|].
    apply in_flat_map in Hp as (q & Hq & Hp). apply in_map_iff in Hp as (b & <- & Hb). cbn [from_ast p_syms] in Hx. apply in_map_iff in Hx as (y & Ey & Hy).
    apply (H y); auto. exists q, b. auto.
Qed.
Lemma productions_total ast g : grammar_from_ast ast = Ok g -> exists r, productions_text g = Ok r.
Proof.
  intros Hg. destruct (grammar_from_ast_ok _ _ Hg) as (st & _ & W & _). unfold productions_text.
  destruct (mapM_total (production_text g) (enum (g_prods g))) as (r2 & ->); [|cbn; eauto].
  intros [i p] Hp. apply in_enum in Hp. unfold production_text. cbn [snd]. destruct (mapM_total (token_index g) (p_syms p)) as (r & ->); [|cbn; eauto].
  intros y Hx. unfold token_index. pose proof (token_of_body g _ W p y Hp Hx) as H. apply get_token_idx_In in H as (j & ->). eauto.
Qed.

(** ** C67 *)

(** The parser file of any list of rules is generated exactly when every symbol can be written. *)
Theorem C67_parser_file_iff :
  forall ast g L t, grammar_from_ast ast = Ok g ->
  (exists text, parse_generate ast (Lalr g L t) = Ok text) <-> forall x, occurs ast x -> can_write x.
Proof.
  intros ast g L t Hg. destruct (productions_total ast g Hg) as (pt & Ept). unfold parse_generate, type_defs_text, actions_text. cbn [l_grammar l_tables]. split.
  - intros (text & E) x Hx. apply bind_ok in E as (l & El & E). apply bind_ok in E as (d & Ed & E). apply bind_ok in E as (a & Ea & _).
    apply bind_ok in Ed as (tt & Et & _). apply bind_ok in Ea as (r & Er & _).
    assert (H1 : all_named x) by (apply (proj1 (gactions_iff ast)); eauto).
    assert (H2 : lower x <> SEps) by (apply (proj1 (tokens_iff ast g Hg)); eauto).
    split; auto. split; auto. destruct (proj1 (acts_iff ast l El) (ex_intro _ r Er) x Hx) as [H|[H|H]]; tauto.
  - intros H. destruct (proj2 (gactions_iff ast)) as (l & El); [intros x Hx; apply H, Hx|]. rewrite El. cbn [bind].
    destruct (proj2 (tokens_iff ast g Hg)) as (tt & ->); [intros x Hx; apply H, Hx|]. rewrite Ept. cbn [bind].
    destruct (proj2 (acts_iff ast l El)) as (r & ->); [|cbn; eauto]. intros x Hx. destruct (H x Hx) as (_ & _ & H1). tauto.
Qed.
Print Assumptions C67_parser_file_iff.

(** The lexer file is generated for every lexer. *)
Theorem C67_lexer_file : forall tokens L, from_tokens tokens = Ok L -> exists text, lex_generate L = Ok text.
Proof.
  intros tokens L HL. destruct (lexer_ctx tokens L HL) as (c & Ec & _). unfold lex_generate. rewrite Ec. cbn. eauto.
Qed.
Print Assumptions C67_lexer_file.

(** A regex the automata can be built for (C02). *)
Definition can_compile (h : hir) : Prop := (forall x, subterm x h -> ~ unsupported x /\ x <> HEmpty) \/ grouped_empty h.

Lemma lit_compiles s : exists n, from_regex (lit_hir s) = Ok n.
Proof.
  apply C02_from_regex_accepts_iff. destruct s as [|c [|d s]]; [right; constructor|..]; left; intros x Hx.
  - inversion Hx; subst. split; [auto|discriminate].
  - cbn [lit_hir] in Hx. inversion Hx as [|? ? h H1|? h H1|? h hs Hin H1|? h hs Hin H1]; subst; [split; [auto|discriminate]|].
    apply (in_map_iff HLit (c :: d :: s) h) in Hin as (e & <- & _). inversion H1; subst. split; [auto|discriminate].
Qed.
Lemma tokens_of_total parse_regex l : forall k, (exists tokens, grammar_tokens_from parse_regex k l = Ok tokens) <-> forall r, In (SReg r) l -> exists h, parse_regex r = Some h.
Proof.
  induction l as [|x l IH]; intros k; cbn [grammar_tokens_from]; [split; [intros _ r []|eauto]|]. split.
  - intros (tokens & E) r [->|Hr]; apply bind_ok in E as (o & Eo & E); apply bind_ok in E as (ts & Et & _).
    + cbn in Eo. destruct (parse_regex r); [eauto|discriminate].
    + apply (proj1 (IH (S k))); eauto.
  - intros H. destruct (proj2 (IH (S k))) as (ts & ->); [intros r Hr; apply H; right; auto|].
    destruct x as [s|s|s| |]; cbn; eauto. destruct (H s (or_introl eq_refl)) as (h & ->). cbn. eauto.
Qed.
Lemma lexer_iff parse_regex g : (exists L, from_grammar parse_regex g = Ok L) <-> forall r, In (SReg r) (g_tokens g) -> exists h, parse_regex r = Some h /\ can_compile h.
Proof.
  unfold from_grammar. split.
  - intros (L & E) r Hr. apply bind_ok in E as (ts & Et & E). destruct (proj1 (tokens_of_total parse_regex (g_tokens g) 0) (ex_intro _ ts Et) r Hr) as (h & Eh).
    exists h. split; auto. apply C02_from_regex_accepts_iff. apply In_nth_error in Hr as [i Hi].
    apply (proj1 (C05_lexer_built_iff ts) (ex_intro _ L E) (TokenDef r true (Some i)) h).
    apply (grammar_tokens_spec parse_regex g ts Et). exists i, (SReg r), r. auto.
  - intros H. destruct (proj2 (tokens_of_total parse_regex (g_tokens g) 0)) as (ts & Et).
    { intros r Hr. destruct (H r Hr) as (h & Eh & _). eauto. }
    unfold grammar_tokens. rewrite Et. cbn [bind]. apply C05_lexer_built_iff. intros td h Hin.
    apply (grammar_tokens_spec parse_regex g ts Et) in Hin as (i & x & n & Hi & _ & _ & Hx).
    destruct x as [s|s|s| |]; cbn in Hx; try discriminate.
    + injection Hx as <-. apply lit_compiles.
    + destruct (H s) as (h' & E & Hc); [eapply nth_error_In; eauto|]. rewrite E in Hx. injection Hx as <-. apply C02_from_regex_accepts_iff, Hc.
Qed.
Lemma token_occurs ast g x : grammar_from_ast ast = Ok g -> terminal x -> x <> SEof -> In x (g_tokens g) <-> exists y, occurs ast y /\ lower y = x.
Proof.
  intros Hg Ht Hx. destruct (grammar_from_ast_ok _ _ Hg) as (st & _ & W & _ & Ep). destruct (wg_tokens _ _ W) as (l & El & _ & Hl). rewrite El. split.
  - intros [H|H]; [congruence|]. apply Hl in H as (p & Hp & H). rewrite Ep in Hp. destruct Hp as [<-|Hp]; [destruct H as [H|[]]; subst x; destruct (Ht _ eq_refl)|].
    apply in_flat_map in Hp as (q & Hq & Hp). apply in_map_iff in Hp as (b & <- & Hb). cbn [from_ast p_syms] in H. apply in_map_iff in H as (y & Ey & Hy).
    exists y. split; auto. exists q, b. auto.
  - intros (y & (p & b & Hp & Hb & Hy) & <-). right. apply Hl. exists (from_ast p b). split.
    + rewrite Ep. right. apply in_flat_map. exists p. split; auto. apply in_map. auto.
    + cbn [from_ast p_syms]. apply in_map. exact Hy.
Qed.
Lemma file_can_write ast x : file_ast ast -> occurs ast x -> can_write x.
Proof.
  intros [_ Hf] (p & b & Hp & Hb & Hx). destruct (Hf p Hp) as [_ H]. destruct (H b Hb) as [_ HF]. rewrite Forall_forall in HF. specialize (HF x Hx).
  destruct x as [s|[n|] ty|s|s| |]; cbn in HF; try destruct HF; try (split; [exact I|split; [discriminate|left; exact I]]).
  destruct ty as [s|[m|] ty|s|s| |]; cbn in H1; try destruct H1; (split; [exact I|split; [discriminate|left; exact I]]).
Qed.

(** For a grammar file that is read: the grammar, the lexer, the tables and both files are made exactly when a
    rule is marked as start, every regex is understood and supported, FIRST is computable where it is needed (C24),
    no two different cores have the same hash and no two items of a state want the same entry (C27). *)
Theorem C67_outputs_iff :
  forall parse_regex hash text ast, parse_grammar text = Ok ast ->
  (exists g l lt pt, grammar_from_ast ast = Ok g /\ lalr_new parse_regex hash g = Ok l /\
     lex_generate (l_lexer l) = Ok lt /\ parse_generate ast l = Ok pt) <->
  (exists p, In p ast /\ ap_start p = true) /\
  (forall r x, occurs ast x -> lower x = SReg r -> exists h, parse_regex r = Some h /\ can_compile h) /\
  (forall g, grammar_from_ast ast = Ok g ->
     (forall p pr d B, reachable g p -> nth_error (g_prods g) p = Some pr -> nth_error (p_syms pr) d = Some (SNon B) ->
        has_rule g B /\ forall x, nth_error (p_syms pr) (S d) = Some x ->
        forall A b, derives g [x] (SNon A :: b) -> has_rule g A /\ ~ left_recursive g A) /\
     forall lr0, items g = Ok lr0 -> collision_free hash lr0 /\
     forall I, lr_state g (F_std g) I -> forall p d p' d' k,
       wants g (F_std g) (lalr_of g (F_std g) I) p d k -> wants g (F_std g) (lalr_of g (F_std g) I) p' d' k -> (p, d) = (p', d')).
Proof.
  intros parse_regex hash text ast Ha. pose proof (C52_file_ast _ _ Ha) as Hf.
  assert (Hreg : forall g, grammar_from_ast ast = Ok g -> ((forall r x, occurs ast x -> lower x = SReg r -> exists h, parse_regex r = Some h /\ can_compile h) <->
    exists L, from_grammar parse_regex g = Ok L)).
  { intros g Hg. rewrite lexer_iff. split.
    - intros H r Hr. apply (token_occurs ast g (SReg r) Hg) in Hr as (y & Hy & Ey); [eauto|intros n; discriminate|discriminate].
    - intros H r x Hx Er. apply H. apply (token_occurs ast g (SReg r) Hg); [intros n; discriminate|discriminate|eauto]. }
  split.
  - intros (g & l & lt & pt & Hg & Hl & _ & _). unfold lalr_new in Hl. apply bind_ok in Hl as (L & HL & Hl). apply bind_ok in Hl as (t & Ht & Hl).
    destruct (file_plain _ _ Hf Hg) as [[He _] _]. split; [|split].
    + destruct (grammar_from_ast_ok _ _ Hg) as (st & Hst & _). apply find_some in Hst. eauto.
    + apply (Hreg g Hg). eauto.
    + intros g' Hg'. rewrite Hg in Hg'. injection Hg' as <-. destruct (proj1 (C27_tables_built_iff _ _ Hg He hash) (ex_intro _ t Ht)) as (lr0 & El & Hc & Hw).
      split; [apply (C24_returns_iff _ _ Hg He); eauto|]. intros lr1 El1. rewrite El in El1. injection El1 as <-. auto.
  - intros ((p & Hp & Hps) & Hr & Ht). destruct (grammar_from_ast ast) as [g| |] eqn:Hg.
    2,3: exfalso; unfold grammar_from_ast in Hg; destruct (find ap_start ast) as [st|] eqn:Ef; [destruct (fold_left add_prod ast _); discriminate|];
         apply (find_none _ _ Ef) in Hp; congruence.
    destruct (file_plain _ _ Hf Hg) as [[He _] _]. destruct (Ht g eq_refl) as [Hi Hw]. apply (C24_returns_iff _ _ Hg He) in Hi as (lr0 & El).
    destruct (Hw lr0 El) as [Hc Hw']. destruct (proj2 (C27_tables_built_iff _ _ Hg He hash)) as (t & Et); [exists lr0; auto|].
    destruct (proj1 (Hreg g eq_refl) Hr) as (L & HL). unfold from_grammar in HL. pose proof HL as HL'. apply bind_ok in HL' as (ts & _ & HL').
    destruct (C67_lexer_file _ _ HL') as (lt & Elt).
    destruct (proj2 (C67_parser_file_iff ast g L t Hg)) as (pt & Ept); [intros x Hx; eapply file_can_write; eauto|].
    exists g, (Lalr g L t), lt, pt. split; auto. split; auto. unfold lalr_new, from_grammar. rewrite HL. cbn [bind]. rewrite Et. reflexivity.
Qed.
Print Assumptions C67_outputs_iff.

(** Rules not read from a file can be such that everything but the parser file is made: with epsilon, with a
    symbol in angle brackets but without a name, and with a name inside a name. *)
Definition unwritable : list (list aprod) :=
  [ [PS 83 [[V 65; T 98]]; P 65 [[IEps]; [T 99]]];
    [PS 83 [[INamed None (T 97)]]];
    [PS 83 [[INamed (Some [110%N]) (INamed (Some [109%N]) (T 97))]]] ].
Theorem C67_always_refuted :
  forall ast, In ast unwritable -> exists g l, grammar_from_ast ast = Ok g /\ lalr_new (fun _ => None) ehash g = Ok l /\
    (exists text, lex_generate (l_lexer l) = Ok text) /\ exists p, parse_generate ast l = Panic p.
Proof.
  intros ast [<-|[<-|[<-|[]]]].
  all: match goal with |- context [grammar_from_ast ?a] => destruct (grammar_from_ast a) as [g| |] eqn:Eg; [|vm_compute in Eg; discriminate Eg..] end.
  all: destruct (lalr_new (fun _ => None) ehash g) as [l| |] eqn:El; [|vm_compute in Eg; injection Eg as <-; vm_compute in El; discriminate El..].
  all: exists g, l; split; auto; split; [exact El|]; vm_compute in Eg; injection Eg as <-; vm_compute in El; injection El as <-; vm_compute; eauto.
Qed.
Print Assumptions C67_always_refuted.

(** The hypotheses are met: by the committed grammar file, for which everything is made. *)
Example C67_nonvacuous : parse_grammar lisp_text = Ok lisp_ast /\
  exists g l lt pt, grammar_from_ast lisp_ast = Ok g /\ lalr_new lisp_regex ehash g = Ok l /\
    lex_generate (l_lexer l) = Ok lt /\ parse_generate lisp_ast l = Ok pt.
Proof.
  split; [apply C51_nonvacuous|].
  destruct (grammar_from_ast lisp_ast) as [g| |] eqn:Eg; [|vm_compute in Eg; discriminate Eg..].
  destruct (lalr_new lisp_regex ehash g) as [l| |] eqn:El; [|vm_compute in Eg; injection Eg as <-; vm_compute in El; discriminate El..].
  exists g, l. destruct (lex_generate (l_lexer l)) as [lt| |] eqn:E1.
  2,3: exfalso; vm_compute in Eg; injection Eg as <-; vm_compute in El; injection El as <-; vm_compute in E1; discriminate E1.
  destruct (parse_generate lisp_ast l) as [pt| |] eqn:E2.
  2,3: exfalso; vm_compute in Eg; injection Eg as <-; vm_compute in El; injection El as <-; vm_compute in E2; discriminate E2.
  exists lt, pt. auto.
Qed.
