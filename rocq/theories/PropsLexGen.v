(** Properties C40, C41 and C49: the generated arithmetic, lexer and character tables. *)
From Coq Require Import Ascii String.
From Verif Require Import Base Regex Nfa NfaProofs Dfa DfaProofs Lex LexSpec LexNfa LexProofs Grammar LexGrammar Text
  TsText TsTextFacts TsScan TsTables TsTablesFacts LexGen LexGenProofs LexGenLexer Lisp.
Local Open Scope list_scope.

(** ** C40 *)

(** Read as TypeScript, the text declares the two tables, each member once, with exactly these
    entries. *)
Theorem C40_tables :
  forall n, exists ts s p, toks (gen_arithmetic n) = Some ts /\
  Decls ts [(tx "SuccTable", s); (tx "PredTable", p)] /\
  (forall k v, member s k v <-> exists i, (i < N.of_nat n)%N /\ k = KNum i /\ v = VNum (i + 1)) /\
  (forall k v, member p k v <-> exists i, (i < N.of_nat n)%N /\ k = KNum (i + 1) /\ v = VNum i).
Proof.
  intros n. do 3 eexists. split; [apply toks_of, scan_arithmetic|]. split; [apply read_arithmetic|].
  assert (HN : forall f : nat -> N, (forall i j, f i = f j -> i = j) -> forall (g : nat -> value), NoDup (keys (map (fun i => (KNum (f i), g i)) (seq 0 n)))).
  { intros f Hf g. unfold keys. rewrite map_map. cbn [fst]. apply FinFun.Injective_map_NoDup; [|apply seq_NoDup]. intros i j E. injection E as E. auto. }
  split; intros k v; split.
  - intros (l & E & _ & H). injection E as <-. apply in_map_iff in H as (i & E & H). injection E as <- <-. apply in_seq in H.
    exists (N.of_nat i). split; [lia|]. split; auto. f_equal. lia.
  - intros (i & Hi & -> & ->). exists (succ_table n). split; auto. split; [apply HN; intros; lia|].
    apply in_map_iff. exists (N.to_nat i). split; [|apply in_seq; lia]. f_equal; f_equal; lia.
  - intros (l & E & _ & H). injection E as <-. apply in_map_iff in H as (i & E & H). injection E as <- <-. apply in_seq in H.
    exists (N.of_nat i). split; [lia|]. split; auto. f_equal. lia.
  - intros (i & Hi & -> & ->). exists (pred_table n). split; auto. split; [apply HN; intros; lia|].
    apply in_map_iff. exists (N.to_nat i). split; [|apply in_seq; lia]. f_equal; f_equal; lia.
Qed.
Print Assumptions C40_tables.

(** The reader is a function: the tables above are the only ones the text declares. *)
Theorem C40_unique :
  forall n ts ds ds', toks (gen_arithmetic n) = Some ts -> Decls ts ds -> Decls ts ds' -> ds = ds'.
Proof. intros n ts ds ds' _ H H'. eapply Decls_det; eauto. Qed.
Print Assumptions C40_unique.

Example C40_nonvacuous : exists ts s p, toks (gen_arithmetic 3) = Some ts /\ Decls ts [(tx "SuccTable", s); (tx "PredTable", p)] /\
  member s (KNum 2) (VNum 3) /\ ~ has_key s (KNum 3).
Proof.
  destruct (C40_tables 3) as (ts & s & p & H1 & H2 & H3 & _). exists ts, s, p. split; auto. split; auto. split.
  - apply H3. exists 2%N. split; [lia|auto].
  - intros (v & Hv). apply H3 in Hv as (i & Hi & E & _). injection E as <-. lia.
Qed.

(** ** C41 *)

(** What the Rust lexer emits when a longest match ends in DFA state [i] (lex.rs:180, 224-233). *)
Definition emitted (L : lexer) (i : nat) : option token_def :=
  match map_get i (lx_accepting L) with Some (a :: _) => map_get a (lx_tokens L) | _ => None end.
(** A name that, between double quotes, is the string [kind]. *)
Definition readable (tokens : list (token_def * hir)) : Prop := forall td h, In (td, h) tokens -> unq 34 (td_name td) <> None.

(** For every lexer whose token names stay inside their quotes: the text is generated, it
    declares tables [T] and no others; [T] has the DFA's states with their edges in order; a state
    is marked as accepting iff a token can end there; and the definition that ts/lex.ts finds for
    a state is the one the Rust lexer emits, its kind being the name as TypeScript reads it. *)
Theorem C41_tables_partial :
  forall tokens L, from_tokens tokens = Ok L -> readable tokens ->
  exists text T, lex_generate L = Ok text /\ ReadLex text T /\ (forall T', ReadLex text T' -> T' = T) /\
  length (lt_states T) = length (d_first (lx_dfa L)) /\
  (forall i s, nth_error (lt_states T) i = Some s ->
     exists oes, d_edge_iter (lx_dfa L) i = Ok oes /\
     let es := match oes with Some es => es | None => [] end in
     tl_to s = map (fun e => N.of_nat (de_to e)) es /\ tl_labels s = map de_label es /\
     (tl_accepting s = true <-> emitted L i <> None)) /\
  (forall i td, emitted L i = Some td -> exists kind, token_def_of T (N.of_nat i) = Some (kind, td_with_val td) /\ unq 34 (td_name td) = Some kind) /\
  (forall i, emitted L i = None -> token_def_of T (N.of_nat i) = None).
Proof.
  intros tokens L HL Hq. destruct (lexer_tokens tokens L HL) as (TS & TK & TA). destruct (lexer_accepting tokens L HL) as (DS & DA & DL & DE).
  destruct (lexer_ctx tokens L HL) as (c & Ec & CS & CD & CT & CL & CF).
  assert (Hqc : forall e, In e (lc_tokens c) -> unq 34 (fst (snd e)) <> None).
  { intros [k v] He. apply map_get_iff in He; auto. apply CT in He as ((td & Hk & ->) & _). cbn [fst snd].
    apply TK in Hk as [_ Hin]. apply in_map_iff in Hin as ([td' h] & E & Hin). cbn [fst] in E. subst td'. eapply Hq; eauto. }
  exists (lex_ctx_text c), (tables_of c). split; [unfold lex_generate; rewrite Ec; reflexivity|].
  assert (HR : ReadLex (lex_ctx_text c) (tables_of c)).
  { apply readlex_ctx; auto; [apply ssorted_NoDup; exact CS|]. rewrite CD. apply ssorted_NoDup. exact DS. }
  split; auto. split; [intros T' HT; eapply ReadLex_det; eauto|]. split; [unfold tables_of; cbn [lt_states]; rewrite map_length; auto|].
  assert (Hem : forall i, emitted L i = match map_get i (dfa_to_nfa (lx_dfa L)) with
     | Some q => match filter (fun s => set_mem s (d_accepting (lx_dfa L))) q with [] => None | a :: _ => map_get a (lx_tokens L) end
     | None => None end).
  { intros i. unfold emitted. rewrite DA. destruct (map_get i (dfa_to_nfa (lx_dfa L))) as [q|]; auto. destruct (filter _ q); auto. }
  assert (Hdef : forall i, token_def_of (tables_of c) (N.of_nat i) =
     match emitted L i with Some td => Some (snd (kinded (0, (td_name td, td_with_val td)))) | None => None end).
  { intros i. unfold token_def_of, tables_of. cbn [lt_d2n lt_tokens]. rewrite CD.
    rewrite (geti_map (map N.of_nat)). rewrite Hem. destruct (map_get i (dfa_to_nfa (lx_dfa L))) as [q|] eqn:Eq; auto. cbn [option_map].
    change (map (fun e : nat * (list N * bool) => (N.of_nat (fst e), snd (kinded e))) (lc_tokens c))
      with (map (fun e : nat * (list N * bool) => (N.of_nat (fst e), snd (kinded (0, snd e)))) (lc_tokens c)).
    rewrite (first_def_spec (lc_tokens c) (fun v => snd (kinded (0, v))) (fun s => set_mem s (d_accepting (lx_dfa L))) q).
    - destruct (filter (fun s => set_mem s (d_accepting (lx_dfa L))) q) as [|a fl] eqn:Ef; auto.
      assert (Ha : In a q /\ set_mem a (d_accepting (lx_dfa L)) = true) by (apply (filter_In (fun s => set_mem s (d_accepting (lx_dfa L)))); rewrite Ef; left; auto).
      destruct (TA a) as (td & Htd); [apply set_mem_In; tauto|]. rewrite Htd.
      rewrite (proj2 (CT a (td_name td, td_with_val td))); [reflexivity|]. split; [eauto|].
      exists i, (a :: fl). split; [|left; auto]. rewrite DA, Eq, Ef. auto.
    - intros k Hk. split.
      + intros Hn. destruct (map_get k (lc_tokens c)) as [v|] eqn:E; [|congruence]. apply CT in E as ((td & Htd & _) & _).
        apply TK in Htd as [Htd _]. apply set_mem_In. auto.
      + intros Hm. destruct (TA k) as (td & Htd); [apply set_mem_In; auto|]. intros E.
        assert (map_get k (lc_tokens c) = Some (td_name td, td_with_val td)); [|congruence]. apply CT. split; [eauto|].
        assert (Hin : In k (filter (fun s => set_mem s (d_accepting (lx_dfa L))) q)) by (apply filter_In; auto).
        destruct (filter (fun s => set_mem s (d_accepting (lx_dfa L))) q) as [|a fl] eqn:Ef; [destruct Hin|].
        exists i, (a :: fl). split; auto. rewrite DA, Eq, Ef. auto. }
  split; [|split].
  - intros i s Hs. unfold tables_of in Hs. cbn [lt_states] in Hs. rewrite nth_error_map in Hs.
    destruct (nth_error (lc_states c) i) as [st|] eqn:Es; [|discriminate]. injection Hs as <-. apply CF in Es.
    unfold from_lex_state in Es. apply bind_ok in Es as (oes & Eo & Es). injection Es as <-. exists oes. split; auto.
    unfold state_of. cbn [tl_to tl_labels tl_accepting ts_labels ts_accepting].
    split; [destruct oes; auto; rewrite map_map; auto|]. split; [destruct oes; auto; rewrite map_map; auto|].
    unfold dfa_state_is_accepting. rewrite Hem. destruct (map_get i (dfa_to_nfa (lx_dfa L))) as [q|]; [|split; congruence].
    rewrite existsb_exists. split.
    + intros (x & Hx & Hm). assert (Hin : In x (filter (fun s => set_mem s (d_accepting (lx_dfa L))) q)) by (apply filter_In; auto).
      destruct (filter (fun s => set_mem s (d_accepting (lx_dfa L))) q) as [|a fl] eqn:Ef; [destruct Hin|].
      assert (Ha : In a (a :: fl)) by (left; auto). rewrite <- Ef in Ha. apply filter_In in Ha as [_ Ha]. apply set_mem_In in Ha.
      destruct (TA a Ha) as (td & ->). congruence.
    + destruct (filter (fun s => set_mem s (d_accepting (lx_dfa L))) q) as [|a fl] eqn:Ef; [congruence|]. intros _.
      assert (Ha : In a (a :: fl)) by (left; auto). rewrite <- Ef in Ha. apply filter_In in Ha. exists a. auto.
  - intros i td Htd. rewrite Hdef, Htd. unfold kinded. cbn [fst snd].
    assert (Hin : In td (map fst tokens)).
    { unfold emitted in Htd. destruct (map_get i (lx_accepting L)) as [[|a l]|]; try discriminate. apply TK in Htd. tauto. }
    apply in_map_iff in Hin as ([td' h] & E & Hin). cbn [fst] in E. subst td'. apply Hq in Hin.
    destruct (unq 34 (td_name td)) as [k|]; [|congruence]. eauto.
  - intros i Htd. rewrite Hdef, Htd. auto.
Qed.
Print Assumptions C41_tables_partial.

(** Names without quote, backslash or line break are kept. *)
Theorem C41_kind_partial : forall s, quotable 34 s -> unq 34 s = Some s.
Proof. intros s. apply quotable_unq. Qed.
Print Assumptions C41_kind_partial.

(** False without a condition on names: a quote in a name ends the string early, and the text is
    no table at all. *)
Theorem C41_tables_refuted :
  exists tokens L text, from_tokens tokens = Ok L /\ lex_generate L = Ok text /\ forall T, ~ ReadLex text T.
Proof.
  set (tokens := [(TokenDef [34%N] true None, HLit 34)]).
  destruct (from_tokens tokens) as [L| |] eqn:EL; [|vm_compute in EL; discriminate EL..].
  destruct (lex_generate L) as [text| |] eqn:ET.
  - exists tokens, L, text. split; auto. split; auto. intros T (ts & ds & sts & tks & dn & Ht & _).
    vm_compute in EL. injection EL as <-. vm_compute in ET. injection ET as <-. vm_compute in Ht. discriminate Ht.
  - vm_compute in EL. injection EL as <-. vm_compute in ET. discriminate ET.
  - vm_compute in EL. injection EL as <-. vm_compute in ET. discriminate ET.
Qed.
Print Assumptions C41_tables_refuted.

(** And a backslash in a name, as in most regexes, is lost: the kind is another string.  Two
    tokens of the Rust lexer can have one kind. *)
Theorem C41_kind_refuted :
  exists tokens L text T i j td td' v, from_tokens tokens = Ok L /\ lex_generate L = Ok text /\ ReadLex text T /\
  emitted L i = Some td /\ emitted L j = Some td' /\ td_name td <> td_name td' /\
  token_def_of T (N.of_nat i) = Some v /\ token_def_of T (N.of_nat j) = Some v /\ td_name td <> fst v.
Proof.
  set (tokens := [(TokenDef (tx "\d") true None, HClass [(48, 57)%N]); (TokenDef (tx "d") true None, HLit 100)]).
  destruct (from_tokens tokens) as [L| |] eqn:EL; [|vm_compute in EL; discriminate EL..].
  destruct (C41_tables_partial tokens L EL) as (text & T & E1 & E2 & _ & _ & _ & E3 & _).
  { intros td h [H|[H|[]]]; injection H as <- <-; vm_compute; discriminate. }
  exists tokens, L, text, T, 1, 2, (TokenDef (tx "\d") true None), (TokenDef (tx "d") true None), (tx "d", true).
  split; auto. split; auto. split; auto.
  assert (F1 : emitted L 1 = Some (TokenDef (tx "\d") true None)) by (clear - EL; vm_compute in EL; injection EL as <-; vm_compute; reflexivity).
  assert (F2 : emitted L 2 = Some (TokenDef (tx "d") true None)) by (clear - EL; vm_compute in EL; injection EL as <-; vm_compute; reflexivity).
  split; auto. split; auto. split; [discriminate|].
  destruct (E3 1 _ F1) as (k1 & G1 & K1). vm_compute in K1. injection K1 as <-.
  destruct (E3 2 _ F2) as (k2 & G2 & K2). vm_compute in K2. injection K2 as <-.
  split; [exact G1|]. split; [exact G2|discriminate].
Qed.
Print Assumptions C41_kind_refuted.

(** For the grammar of /repo/basic_lisp.tlalr the model writes /repo/ts/lex_state.gen.ts, byte for
    byte. *)
Definition lex_state_gen : list N := tx "/**
            * These are generated DFA states for the lexer.
            * Don't edit this file.
            */
            
            type TokenDef2 = {
                    kind: ""("",
                    hasValue: true
                }
                
                type TokenDef5 = {
                    kind: "")"",
                    hasValue: true
                }
                
                type TokenDef8 = {
                    kind: ""add"",
                    hasValue: true
                }
                
                type TokenDef13 = {
                    kind: ""[1-9]+[0-9]*"",
                    hasValue: true
                }
                
                export type Tokens = {
  2: TokenDef2;  5: TokenDef5;  8: TokenDef8;  13: TokenDef13;
}

type State0 = {
                    to: [1,2,3,4],
                    labels: [{ from: 40, to: 41 },{ from: 41, to: 42 },{ from: 49, to: 58 },{ from: 97, to: 98 }],
                    accepting: false
                }
                
                type State1 = {
                    to: [],
                    labels: [],
                    accepting: true
                }
                
                type State2 = {
                    to: [],
                    labels: [],
                    accepting: true
                }
                
                type State3 = {
                    to: [5,6],
                    labels: [{ from: 48, to: 49 },{ from: 49, to: 58 }],
                    accepting: true
                }
                
                type State4 = {
                    to: [7],
                    labels: [{ from: 100, to: 101 }],
                    accepting: false
                }
                
                type State5 = {
                    to: [5,5],
                    labels: [{ from: 48, to: 49 },{ from: 49, to: 58 }],
                    accepting: true
                }
                
                type State6 = {
                    to: [5,6],
                    labels: [{ from: 48, to: 49 },{ from: 49, to: 58 }],
                    accepting: true
                }
                
                type State7 = {
                    to: [8],
                    labels: [{ from: 100, to: 101 }],
                    accepting: false
                }
                
                type State8 = {
                    to: [],
                    labels: [],
                    accepting: true
                }
                
                export type States = [State0, State1, State2, State3, State4, State5, State6, State7, State8];

export type DFAtoNFA = {
  1: [ 2 ],
2: [ 5 ],
3: [ 13, 16, 17, 18, 19, 20, 21, 22 ],
4: [ 10 ],
5: [ 13, 14, 15, 16, 17 ],
6: [ 13, 14, 15, 16, 17, 18, 19, 20, 21, 22 ],
7: [ 9 ],
8: [ 8 ],
}".
Example C41_nonvacuous : exists g tokens L, grammar_from_ast lisp_ast = Ok g /\ grammar_tokens lisp_regex g = Ok tokens /\
  from_grammar lisp_regex g = Ok L /\ from_tokens tokens = Ok L /\ readable tokens /\ lex_generate L = Ok lex_state_gen.
Proof.
  destruct (grammar_from_ast lisp_ast) as [g| |] eqn:Eg; [|vm_compute in Eg; discriminate Eg..].
  destruct (grammar_tokens lisp_regex g) as [tokens| |] eqn:Et; [|vm_compute in Eg; injection Eg as <-; vm_compute in Et; discriminate Et..].
  destruct (from_tokens tokens) as [L| |] eqn:EL; [|vm_compute in Eg; injection Eg as <-; vm_compute in Et; injection Et as <-; vm_compute in EL; discriminate EL..].
  exists g, tokens, L. split; auto. split; auto. split; [unfold from_grammar; rewrite Et; exact EL|]. split; auto.
  vm_compute in Eg; injection Eg as <-. vm_compute in Et. injection Et as <-. split.
  - intros td h H. repeat (destruct H as [H|H]; [injection H as <- <-; vm_compute; discriminate|]). destruct H.
  - vm_compute in EL. injection EL as <-. vm_compute. reflexivity.
Qed.

(** ** C49 *)

(** The ranges of the class the regex crate documents for a dot: every character but the line
    feed. *)
Definition dot_ranges : list (N * N) := [(0, 9); (11, 1114111)]%N.
(** Characters below 256 that are left out: tab, vertical tab, form feed, carriage return, delete,
    no-break space, soft hyphen. *)
Definition left_out : list N := [9; 11; 12; 13; 127; 160; 173]%N.

Lemma chars_fold l : forall m, msorted m -> (forall c v, map_get c m = Some v -> v = (c mod 256)%N) ->
  let r := fold_left (fun m c =>
    if existsb (N.eqb c) invisible_codepoints then m
    else match map_get c m with Some _ => m | None => map_insert c (c mod 256)%N m end) l m in
  msorted r /\ forall c v, map_get c r = Some v <->
    v = (c mod 256)%N /\ ((In c l /\ ~ In c invisible_codepoints) \/ map_get c m = Some v).
Proof.
  induction l as [|a l IH]; intros m Hm Hv; cbn [fold_left].
  - split; auto. intros c v. split; [intros H; split; auto|intros [_ [[[] _]|H]]; auto].
  - assert (Hi : existsb (N.eqb a) invisible_codepoints = true <-> In a invisible_codepoints).
    { rewrite existsb_exists. split; [intros (x & Hx & E); apply N.eqb_eq in E as <-; auto|intros H; exists a; split; auto; apply N.eqb_refl]. }
    destruct (existsb (N.eqb a) invisible_codepoints).
    + destruct (IH m Hm Hv) as (HS & HG). split; auto. intros c v. rewrite HG. split; intros [-> H]; (split; [auto|]).
      * destruct H as [[H1 H2]|H]; auto. left. split; auto. right. auto.
      * destruct H as [[[<-|H1] H2]|H]; auto. exfalso. apply H2. tauto.
    + assert (Hni : ~ In a invisible_codepoints) by (intros H; apply Hi in H; discriminate). destruct (map_get a m) as [v0|] eqn:Ea.
      * destruct (IH m Hm Hv) as (HS & HG). split; auto. intros c v. rewrite HG. split; intros [-> H]; (split; [auto|]).
        -- destruct H as [[H1 H2]|H]; auto. left. split; auto. right. auto.
        -- destruct H as [[[<-|H1] H2]|H]; auto. right. rewrite Ea. f_equal. eauto.
      * destruct (IH (map_insert a (a mod 256)%N m)) as (HS & HG).
        { apply map_insert_sorted; auto. }
        { intros c v H. destruct (N.eq_dec c a) as [->|Hne]; [rewrite map_get_insert_same in H by auto; congruence|].
          rewrite map_get_insert_other in H by auto. auto. }
        split; auto. intros c v. rewrite HG. destruct (N.eq_dec c a) as [->|Hne].
        -- rewrite map_get_insert_same by auto. split; intros [-> H]; (split; [auto|]); [left; simpl; auto|auto].
        -- rewrite map_get_insert_other by auto. split; intros [-> H]; (split; [auto|]).
           ++ destruct H as [[H1 H2]|H]; auto. left. split; auto. right. auto.
           ++ destruct H as [[[H1|H1] H2]|H]; auto. congruence.
Qed.

Lemma nrange_In a b c : In c (nrange a b) <-> (a <= c /\ c < b)%N.
Proof.
  unfold nrange. rewrite in_map_iff. split.
  - intros (i & <- & Hi). apply in_seq in Hi. lia.
  - intros H. exists (N.to_nat (c - a)). split; [lia|]. apply in_seq. lia.
Qed.

Lemma invisible_small c : (c < 256)%N -> (In c invisible_codepoints <-> In c left_out).
Proof.
  intros Hc. assert (G : forall s : list N, forallb (fun i => Bool.eqb (existsb (N.eqb i) s) (existsb (N.eqb i) left_out)) (nrange 0 256) = true ->
    (In c s <-> In c left_out)).
  { intros s H. rewrite forallb_forall in H. specialize (H c). rewrite nrange_In in H. specialize (H ltac:(lia)). apply Bool.eqb_prop in H.
    assert (F : forall l, existsb (N.eqb c) l = true <-> In c l).
    { intros l. rewrite existsb_exists. split; [intros (x & Hx & E); apply N.eqb_eq in E as <-; auto|intros Hx; exists c; split; auto; apply N.eqb_refl]. }
    rewrite <- !F, H. tauto. }
  apply G. vm_compute. reflexivity.
Qed.

(** The table holds exactly the characters below 256 that are not in [left_out], each with its own
    code: in particular no tab, no carriage return and nothing outside Latin-1. *)
Theorem C49_characters :
  forall c v, map_get c (generate_chars dot_ranges) = Some v <-> (v = c /\ (c < 256)%N /\ ~ In c left_out).
Proof.
  intros c v. unfold generate_chars. set (l := _ ++ [32%N]).
  assert (Hl : forall c, In c l <-> (c < 256)%N).
  { intros x. unfold l, dot_ranges. rewrite in_app_iff. cbn [flat_map fst snd]. rewrite !in_app_iff, !in_map_iff. split.
    - intros [[(y & <- & _)|[(y & <- & _)|[]]]|[<-|[]]]; try (apply N.mod_lt; lia). lia.
    - intros Hx. left. right. left. exists (x + 256)%N. split; [|apply nrange_In; lia].
      rewrite N.add_mod by lia. rewrite N.mod_same by lia. rewrite N.add_0_r, N.mod_mod by lia. apply N.mod_small. auto. }
  destruct (chars_fold l [] I) as (_ & HG); [intros ? ? H; discriminate H|].
  rewrite HG, Hl. split.
  - intros (-> & [[H1 H2]|H]); [|discriminate H]. rewrite N.mod_small by auto. rewrite invisible_small in H2 by auto. auto.
  - intros (-> & H1 & H2). rewrite N.mod_small by auto. rewrite invisible_small by auto. auto.
Qed.
Print Assumptions C49_characters.

(** Not every character a regex can match is there. *)
Theorem C49_complete_refuted :
  exists c, (exists lo hi, In (lo, hi) dot_ranges /\ (lo <= c <= hi)%N) /\ map_get c (generate_chars dot_ranges) = None.
Proof.
  exists 9%N. split; [exists 0%N, 9%N; split; [left; auto|lia]|].
  destruct (map_get 9%N (generate_chars dot_ranges)) as [v|] eqn:E; [exfalso|reflexivity]. apply C49_characters in E as (_ & _ & H). apply H. left. reflexivity.
Qed.
Print Assumptions C49_complete_refuted.

(** The text written for a table declares it both ways round. *)
Lemma unq_escape c : c <> 13%N -> unq 34 (char_escape c) = Some [c].
Proof.
  intros H. unfold char_escape. destruct (N.eqb_spec c 34) as [->|H1]; [reflexivity|]. destruct (N.eqb_spec c 92) as [->|H2]; [reflexivity|].
  destruct (N.eqb_spec c 10) as [->|H3]; [reflexivity|]. apply quotable_unq. constructor; [auto|constructor].
Qed.
Definition characters_toks (x : N * N) : list tok := [TNl; TNum (snd x); TPun 58; TStr 34 [fst x]; TPun 44; TNl].
Definition chartable_toks (x : N * N) : list tok := [TNl; TStr 34 [fst x]; TPun 58; TNum (snd x); TPun 44].
Definition opn (n : string) : list tok := [word "export"; word "type"; word n; TPun 61; TPun 123].

Lemma chars_text m : (forall c v, In (c, v) m -> c <> 13%N) ->
  exists ts, toks (chars_to_string m) = Some ts /\
  Decls ts [(tx "Characters", VObj (map (fun x => (KNum (snd x), VStr [fst x])) m));
            (tx "CharTable", VObj (map (fun x => (KName [fst x], VNum (snd x))) m))].
Proof.
  intros H. exists ((opn "Characters" ++ flat_map characters_toks m ++ [TPun 125; TNl]) ++ (opn "CharTable" ++ flat_map chartable_toks m ++ [TPun 125])). split.
  - apply toks_of. unfold chars_to_string.
    assert (S1 : forall x, In x m -> scan SNone (tx "
    " ++ dec (snd x) ++ tx ": """ ++ char_escape (fst x) ++ tx """,
") = (characters_toks x, SNone)).
    { intros [c v] Hx. etransitivity; [sc ltac:(apply unq_escape; apply (H c v Hx))|reflexivity]. }
    assert (S2 : forall x, In x m -> scan SNone (tx "
""" ++ char_escape (fst x) ++ tx """: " ++ dec (snd x) ++ tx ",") = (chartable_toks x, SNone)).
    { intros [c v] Hx. etransitivity; [sc ltac:(apply unq_escape; apply (H c v Hx))|reflexivity]. }
    etransitivity; [sc ltac:(first [exact S1|exact S2])|]. rewrite <- ?app_assoc. cbn [app]. reflexivity.
  - refine (block_decl _ _ _ TNl [] _ eq_refl eq_refl _ _ _).
    { intros r. unfold opn. cbn [app]. apply decl_exp, v_obj. rewrite <- app_assoc, <- (app_nil_r (map _ _)). apply (Mem_flat_map characters_toks); [|apply m_end].
      intros x ts l0 _ Hm. apply m_nl. eapply m_cons; [apply k_num|apply v_str|apply sep_comma|apply m_nl; exact Hm]. }
    apply ds_last. unfold opn. cbn [app]. apply decl_exp, v_obj. rewrite <- (app_nil_r (map _ _)). apply (Mem_flat_map chartable_toks); [|apply m_end].
    intros x ts l0 _ Hm. apply m_nl. eapply m_cons; [apply k_str|apply v_num|apply sep_comma|exact Hm].
Qed.

Lemma chars_sorted dot : msorted (generate_chars dot).
Proof. unfold generate_chars. refine (proj1 (chars_fold _ [] I _)). intros c v H. discriminate H. Qed.

(** Read as TypeScript, the generated text declares [Characters], from codes to characters, and
    [CharTable], from characters to codes, with exactly the characters of C49_characters. *)
Theorem C49_text :
  exists ts codes chars, toks (chars_to_string (generate_chars dot_ranges)) = Some ts /\
  Decls ts [(tx "Characters", codes); (tx "CharTable", chars)] /\
  (forall k v, member codes k v <-> exists c, k = KNum c /\ v = VStr [c] /\ (c < 256)%N /\ ~ In c left_out) /\
  (forall k v, member chars k v <-> exists c, k = KName [c] /\ v = VNum c /\ (c < 256)%N /\ ~ In c left_out).
Proof.
  pose proof (chars_sorted dot_ranges) as HS.
  assert (HG : forall c v, In (c, v) (generate_chars dot_ranges) <-> v = c /\ (c < 256)%N /\ ~ In c left_out).
  { intros c v. rewrite <- map_get_iff by exact HS. apply C49_characters. }
  revert HS HG. generalize (generate_chars dot_ranges). intros m HS HG.
  destruct (chars_text m) as (ts & H1 & H2).
  { intros c v H ->. apply HG in H as (_ & _ & H). apply H. simpl. auto. }
  do 3 eexists. split; [exact H1|]. split; [exact H2|].
  assert (HN : NoDup (map fst m)) by (apply ssorted_NoDup; exact HS).
  assert (HE : forall x, In x m -> snd x = fst x) by (intros [c v] Hx; apply HG in Hx; tauto).
  split; intros k v; split.
  - intros (l & E & _ & H). injection E as <-. apply in_map_iff in H as ([c v'] & E & H). injection E as <- <-. apply HG in H as (-> & H).
    exists c. auto.
  - intros (c & -> & -> & H). eexists. split; [reflexivity|]. split.
    + unfold keys. rewrite map_map. cbn [fst]. rewrite (map_ext_in _ (fun x => KNum (fst x))) by (intros x Hx; rewrite HE; auto).
      rewrite <- (map_map fst KNum). apply FinFun.Injective_map_NoDup; auto. intros a b E. congruence.
    + apply in_map_iff. exists (c, c). split; auto. apply HG. auto.
  - intros (l & E & _ & H). injection E as <-. apply in_map_iff in H as ([c v'] & E & H). injection E as <- <-. apply HG in H as (-> & H).
    exists c. auto.
  - intros (c & -> & -> & H). eexists. split; [reflexivity|]. split.
    + unfold keys. rewrite map_map. cbn [fst]. rewrite <- (map_map fst (fun c => KName [c])). apply FinFun.Injective_map_NoDup; auto.
      intros a b E. congruence.
    + apply in_map_iff. exists (c, c). split; auto. apply HG. auto.
Qed.
Print Assumptions C49_text.

Example C49_nonvacuous : map_get 97%N (generate_chars dot_ranges) = Some 97%N /\ map_get 10%N (generate_chars dot_ranges) = Some 10%N.
Proof. split; apply C49_characters; (split; [reflexivity|]); (split; [lia|]); intros H; simpl in H; repeat (destruct H as [H|H]; [discriminate H|]); destruct H. Qed.
