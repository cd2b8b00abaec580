(** Properties C37, C38, C39 and C47: the generated parser file. *)
From Coq Require Import Ascii String.
From Verif Require Import Base Text Regex Nfa Dfa Lex Grammar GrammarSpec GrammarProofs First Item Table TableProofs TableFacts LexGrammar Lalr EndProofs Witness
  LexGen TsText TsTextFacts TsScan TsModule TsModuleFacts ParseGenSpec LexGenProofs ParseGen ParseGenProofs ParseGenActs ParseGenFile ParseGenEmit ParseGenCheck Lisp.
Local Open Scope list_scope.

(** ** C47 *)

(** For a grammar file whose literals and regexes stay inside their quotes, whose code can be
    read, and whose tokens have different kinds: the file is generated, it declares tables [P] and
    no others, and these are the tokens, productions and parsing tables of the grammar. *)
Theorem C47_tables_partial :
  forall hash ast g t L, file_ast ast -> grammar_from_ast ast = Ok g -> make_tables hash g = Ok t ->
  quotes_ok g -> codes_ok ast -> kinds_distinct g ->
  exists text P, parse_generate ast (Lalr g L t) = Ok text /\ ReadParse text P /\ (forall P', ReadParse text P' -> P' = P) /\ tables_of_grammar g t P.
Proof.
  intros hash ast g t L Hf Hg Ht Hq Hc Hk. destruct (generate_total ast g hash t L Hf Hg Ht Hq Hc) as (text & E).
  pose proof (read_parse ast g hash t L text Hf Hg Ht Hq Hc Hk E) as HR. exists text, (the_tables g t). split; auto. split; auto.
  split; [intros P' HP; eapply ReadParse_det; eauto|]. eapply the_tables_spec; eauto.
Qed.
Print Assumptions C47_tables_partial.

(** Different kinds are needed: otherwise [TokenKindToIdx] has a member twice. *)
Theorem C47_kinds_iff :
  forall hash ast g t L text, file_ast ast -> grammar_from_ast ast = Ok g -> make_tables hash g = Ok t ->
  quotes_ok g -> codes_ok ast -> parse_generate ast (Lalr g L t) = Ok text ->
  (exists P, ReadParse text P) <-> kinds_distinct g.
Proof.
  intros hash ast g t L text Hf Hg Ht Hq Hc E. split.
  - intros (P & (b & M & H)). destruct (kinds_declared ast g hash t L text Hf Hg Ht Hq Hc E) as (b' & M' & D).
    rewrite (Module_det _ _ _ _ M' M) in D. assert (D5 : Declares b (tx "TokenKindToIdx") (name_obj VNum (pt_kinds P)) /\ NoDup (map fst (pt_kinds P))) by tauto.
    destruct D5 as [D5 N5]. apply (Declares_det _ _ _ _ D), name_obj_inj in D5; [|congruence]. rewrite <- D5 in N5.
    apply nodup_kinds; auto. apply (file_readable ast g hash t); auto.
  - intros Hk. exists (the_tables g t). eapply read_parse; eauto.
Qed.
Print Assumptions C47_kinds_iff.


Definition num_code : str := tx "number".
Definition one (n : string) (l : list (list isym)) (start : bool) : aprod := AProd (tx n) (map (fun b => ABody b num_code) l) start num_code.
(** A literal and a regex with the same text; a literal [EOF]; a literal with a quote. *)
Definition same_text : list aprod := [one "S" [[IStr (tx "a")]; [IReg (tx "a")]] true].
Definition eof_literal : list aprod := [one "S" [[IStr (tx "EOF")]] true].
Definition quote_literal : list aprod := [one "S" [[IStr (tx "'")]] true].

Local Ltac build w g t Eg Et :=
  destruct (grammar_from_ast w) as [g| |] eqn:Eg; [|vm_compute in Eg; discriminate Eg..];
  destruct (make_tables ehash g) as [t| |] eqn:Et; [|vm_compute in Eg; injection Eg as <-; vm_compute in Et; discriminate Et..].
Local Ltac is_file := apply file_ast_b_ok; vm_compute; reflexivity.
Local Ltac has_quotes Eg := apply quotes_b_ok; vm_compute in Eg; injection Eg as <-; vm_compute; reflexivity.
Local Ltac has_codes := apply codes_b_ok; vm_compute; reflexivity.

Theorem C47_kinds_refuted :
  forall L, (exists ast g t text, ast = same_text /\ file_ast ast /\ grammar_from_ast ast = Ok g /\ make_tables ehash g = Ok t /\
    quotes_ok g /\ codes_ok ast /\ parse_generate ast (Lalr g L t) = Ok text /\ ~ exists P, ReadParse text P) /\
  (exists ast g t text, ast = eof_literal /\ file_ast ast /\ grammar_from_ast ast = Ok g /\ make_tables ehash g = Ok t /\
    quotes_ok g /\ codes_ok ast /\ parse_generate ast (Lalr g L t) = Ok text /\ ~ exists P, ReadParse text P).
Proof.
  intros L. split.
  - build same_text g t Eg Et. assert (Hf : file_ast same_text) by is_file. assert (Hq : quotes_ok g) by has_quotes Eg. assert (Hc : codes_ok same_text) by has_codes.
    destruct (generate_total _ _ _ _ L Hf Eg Et Hq Hc) as (text & E). exists same_text, g, t, text. do 7 (split; auto).
    rewrite (C47_kinds_iff _ _ _ _ L text Hf Eg Et Hq Hc E). intros Hk. clear - Eg Hk.
    assert (1 = 3); [|discriminate]. apply (Hk 1 3 (Grammar.SStr (tx "a")) (SReg (tx "a")) (tx "a")); vm_compute in Eg; injection Eg as <-; vm_compute; reflexivity.
  - build eof_literal g t Eg Et. assert (Hf : file_ast eof_literal) by is_file. assert (Hq : quotes_ok g) by has_quotes Eg. assert (Hc : codes_ok eof_literal) by has_codes.
    destruct (generate_total _ _ _ _ L Hf Eg Et Hq Hc) as (text & E). exists eof_literal, g, t, text. do 7 (split; auto).
    rewrite (C47_kinds_iff _ _ _ _ L text Hf Eg Et Hq Hc E). intros Hk. clear - Eg Hk.
    assert (0 = 1); [|discriminate]. apply (Hk 0 1 SEof (Grammar.SStr (tx "EOF")) (tx "EOF")); vm_compute in Eg; injection Eg as <-; vm_compute; reflexivity.
Qed.
Print Assumptions C47_kinds_refuted.

(** A literal with a single quote ends the key of [TokenKindToIdx] early. *)
Theorem C47_quotes_refuted :
  forall L, exists ast g t text, ast = quote_literal /\ file_ast ast /\ grammar_from_ast ast = Ok g /\ make_tables ehash g = Ok t /\
    kinds_distinct g /\ codes_ok ast /\ parse_generate ast (Lalr g L t) = Ok text /\ ~ exists P, ReadParse text P.
Proof.
  intros L. build quote_literal g t Eg Et. exists quote_literal, g, t.
  destruct (parse_generate quote_literal (Lalr g L t)) as [text| |] eqn:E;
    [|vm_compute in Eg; injection Eg as <-; vm_compute in Et; injection Et as <-; vm_compute in E; discriminate E..].
  exists text. split; auto. split; [is_file|]. split; auto. split; auto. split; [apply kinds_b_ok; vm_compute in Eg; injection Eg as <-; vm_compute; reflexivity|].
  split; [has_codes|]. split; auto. intros (P & b & (r & M & ->) & H). assert (D : Declares (upto 0 r) (tx "TokenKindToIdx") (name_obj VNum (pt_kinds P))) by tauto.
  clear H. vm_compute in Eg; injection Eg as <-. vm_compute in Et. injection Et as <-. vm_compute in E. injection E as <-.
  vm_compute in M. injection M as <-. destruct D as (r & r' & D & V & _). vm_compute in D. injection D as <-.
  inversion V; subst. repeat match goal with
    | H : Val (_ :: _) _ _ |- _ => inversion H; subst; clear H
    | H : Sep (_ :: _) _ |- _ => inversion H; subst; clear H
    | H : Mem (_ :: _) _ _ |- _ => inversion H; subst; clear H
    | H : Mem [] _ _ |- _ => inversion H end.
Qed.
Print Assumptions C47_quotes_refuted.

(** The committed grammar meets the hypotheses. *)
Example C47_nonvacuous : forall L, exists g t text P, grammar_from_ast lisp_ast = Ok g /\ make_tables ehash g = Ok t /\
  file_ast lisp_ast /\ quotes_ok g /\ codes_ok lisp_ast /\ kinds_distinct g /\
  parse_generate lisp_ast (Lalr g L t) = Ok text /\ ReadParse text P /\
  In (2%N, (tx "Exprs", [4; 5]%N)) (pt_prods P) /\ In (tx "add", 3%N) (pt_kinds P).
Proof.
  intros L. build lisp_ast g t Eg Et. assert (Hf : file_ast lisp_ast) by is_file. assert (Hq : quotes_ok g) by has_quotes Eg. assert (Hc : codes_ok lisp_ast) by has_codes.
  assert (Hk : kinds_distinct g) by (apply kinds_b_ok; vm_compute in Eg; injection Eg as <-; vm_compute; reflexivity).
  destruct (C47_tables_partial _ _ _ _ L Hf Eg Et Hq Hc Hk) as (text & P & E & HR & _ & HT). exists g, t, text, P. do 8 (split; auto). destruct HT as [_ HT _ _ HK]. split.
  - apply HT. exists 2. clear E Et. vm_compute in Eg. injection Eg as <-. eexists. split; [reflexivity|]. split; [reflexivity|]. split; [reflexivity|]. repeat constructor.
  - apply HK. exists 3. clear E Et. vm_compute in Eg. injection Eg as <-. eexists. split; [reflexivity|]. split; [reflexivity|]. vm_compute. reflexivity.
Qed.

(** ** C37 *)

Lemma file_module hash ast g t L : file_ast ast -> grammar_from_ast ast = Ok g -> make_tables hash g = Ok t -> quotes_ok g -> codes_ok ast ->
  exists text, parse_generate ast (Lalr g L t) = Ok text /\
  Module (readable_tokens text) (tx "actions") (TNl :: acts_body ast (map action_of (enum (all_bodies ast)))).
Proof.
  intros Hf Hg Ht Hq Hc. destruct (generate_total ast g hash t L Hf Hg Ht Hq Hc) as (text & E). exists text. split; auto.
  pose proof (file_readable _ _ _ _ Hf Hg Ht Hq) as Hr. pose proof (file_acts _ _ Hf Hg Hq Hc) as Ha.
  unfold readable_tokens. rewrite (generate_toks _ _ _ _ _ Hr Hf Ha E). cbn [fst]. apply module_acts, Ha.
Qed.
Lemma rules_bodies ast : rules ast = all_bodies ast.
Proof. reflexivity. Qed.
Lemma action_declared ast g k nb : file_ast ast -> grammar_from_ast ast = Ok g -> quotes_ok g -> codes_ok ast -> names_free ast ->
  nth_error (rules ast) k = Some nb ->
  Conditional (TNl :: acts_body ast (map action_of (enum (all_bodies ast)))) (tx "Action" ++ decn (S k)) (action_ct (action_of (k, nb))).
Proof.
  intros Hf Hg Hq Hc Hn Hk. pose proof (file_free _ _ Hf Hg Hq Hc Hn) as F. destruct (enum_split _ _ _ Hk) as (l1 & l2 & El).
  rewrite rules_bodies in El. rewrite El in *. rewrite map_app in *. cbn [map] in *. apply (act_conditional ast _ (action_of (k, nb))), F.
Qed.

(** For a grammar file as in C47 whose names do not clash with generated ones: [EmitProduction]
    sends every production index from 1 on to its action and any other index, 0 included, to an
    error; there is one action for every production except 0; the action of production [k] pops as
    many symbols as the production has, binds them in order, and pushes the name of the production
    with the code of the rule. *)
Theorem C37_actions_partial :
  forall hash ast g t L, file_ast ast -> grammar_from_ast ast = Ok g -> make_tables hash g = Ok t -> quotes_ok g -> codes_ok ast -> names_free ast ->
  exists text body, parse_generate ast (Lalr g L t) = Ok text /\ Module (readable_tokens text) (tx "actions") body /\
  (exists c, Conditional body (tx "EmitProduction") c /\
     forall holds p, (forall k, holds (index_test k) = (k =? p)%N) ->
     ceval holds c = if ((1 <=? p) && (p <? N.of_nat (length (g_prods g))))%N then calls_action p else invalid_index) /\
  (forall k, k = 0 \/ length (g_prods g) <= k -> declared (tx "type") (tx "Action" ++ decn k) 0 body = []) /\
  (forall k p name b, 1 <= k -> get_production g k = Some p -> nth_error (rules ast) (k - 1) = Some (name, b) ->
     exists c ns code, Conditional body (tx "Action" ++ decn k) c /\
     nth_error (map fst (spine c)) 0 = Some (pops (N.of_nat (length (p_syms p)))) /\
     nth_error (map fst (spine c)) 1 = Some (binds ns) /\ Forall2 bound (ab_syms b) ns /\
     code_tokens (ab_fn b) = Some code /\ ceval (fun _ => true) c = pushes (p_name p) code) /\
  length (g_prods g) = S (length (rules ast)) /\
  (forall k p name b, get_production g (S k) = Some p -> nth_error (rules ast) k = Some (name, b) -> p_name p = name /\ p_fn p = Some (ab_fn b)).
Proof.
  intros hash ast g t L Hf Hg Ht Hq Hc Hn. destruct (file_module hash ast g t L Hf Hg Ht Hq Hc) as (text & E & HM).
  pose proof (file_free _ _ Hf Hg Hq Hc Hn) as F. pose proof (rules_prods _ _ Hg) as RP.
  assert (HL : length (g_prods g) = S (length (rules ast))).
  { apply Forall2_len in RP. destruct (grammar_from_ast_ok _ _ Hg) as (st & _ & _ & _ & Ep). rewrite Ep in *. cbn [tl length] in *. lia. }
  assert (HR : forall k p name b, get_production g (S k) = Some p -> nth_error (rules ast) k = Some (name, b) ->
    p_name p = name /\ p_syms p = map lower (ab_syms b) /\ p_fn p = Some (ab_fn b)).
  { intros k p name b Hp Hb. destruct (grammar_from_ast_ok _ _ Hg) as (st & _ & _ & _ & Ep). unfold get_production in Hp. rewrite Ep in *. cbn [tl nth_error] in *.
    clear - RP Hp Hb. revert k Hp Hb. induction RP as [|nb q l l' Hq HF IH]; intros k Hp Hb; [destruct k; discriminate|].
    destruct k as [|k]; cbn [nth_error] in *; [|eauto]. injection Hp as ->. injection Hb as ->. exact Hq. }
  assert (HI : map ga_idx (map action_of (enum (all_bodies ast))) = seq 1 (length (rules ast))).
  { rewrite map_map. cbn [action_of ga_idx]. rewrite <- (map_map fst (fun i => 1 + i)), enum_fst. rewrite <- seq_shift. reflexivity. }
  exists text, (TNl :: acts_body ast (map action_of (enum (all_bodies ast)))). split; auto. split; auto. split; [|split; [|split; [|split]]].
  - eexists. split; [apply emit_conditional, F|]. intros holds p Hh. rewrite (emit_eval holds p _ Hh). rewrite HI, HL.
    replace (existsb (fun k => (N.of_nat k =? p)%N) (seq 1 (length (rules ast)))) with ((1 <=? p) && (p <? N.of_nat (S (length (rules ast)))))%N; [reflexivity|].
    apply eq_true_iff_eq. rewrite existsb_exists, andb_true_iff, N.leb_le, N.ltb_lt. split.
    + intros [H1 H2]. exists (N.to_nat p). split; [apply in_seq; lia|apply N.eqb_eq; lia].
    + intros (x & Hx & Ex). apply in_seq in Hx. apply N.eqb_eq in Ex. lia.
  - intros k Hk. apply acts_none; auto. rewrite HI. intros H. apply in_seq in H. lia.
  - intros k p name b Hk Hp Hb. destruct k as [|k]; [lia|]. replace (S k - 1) with k in Hb by lia. destruct (HR k p name b Hp Hb) as (R1 & R2 & _).
    pose proof (action_declared ast g k (name, b) Hf Hg Hq Hc Hn Hb) as HC.
    assert (Hfb : Forall file_named (ab_syms b) /\ tame (ab_fn b)).
    { rewrite rules_bodies in Hb. apply nth_error_In, in_all_bodies in Hb as (q & Hq1 & _ & Hq2). cbn [snd] in Hq2. destruct (proj2 Hf q Hq1) as [_ H].
      split; [apply H, Hq2|]. apply Hc in Hq1 as [_ H']. apply H', Hq2. }
    destruct Hfb as [Hfb (code & Ecode & _)].
    exists (action_ct (action_of (k, (name, b)))), (pattern_names 0 (map param_of (ab_syms b))), code. split; [exact HC|].
    split; [|split; [|split; [|split]]].
    + unfold action_ct. cbn [spine map nth_error fst]. unfold pop_amount. cbn [action_of ga_inputs snd]. rewrite map_length, R2, map_length. reflexivity.
    + unfold action_ct. cbn [spine map nth_error fst]. unfold popped_cond. rewrite pattern_flat. reflexivity.
    + apply pattern_bound, Hfb.
    + exact Ecode.
    + rewrite action_true. cbn [action_of ga_name ga_code fst snd]. rewrite R1. unfold code_of. rewrite Ecode. reflexivity.
  - exact HL.
  - intros k p name b Hp Hb. destruct (HR k p name b Hp Hb) as (H1 & _ & H2). auto.
Qed.
Print Assumptions C37_actions_partial.

(** What a conditional type is declared as is unique. *)
Theorem C37_unique : forall ts n body body' m c c', Module ts n body -> Module ts n body' -> Conditional body m c -> Conditional body' m c' -> c = c'.
Proof. intros ts n body body' m c c' M M'. rewrite (Module_det _ _ _ _ M' M). apply Conditional_det. Qed.
Print Assumptions C37_unique.

(** A non-terminal called like an action declares it a second time. *)
Definition clashing : list aprod := [one "S" [[INon (tx "Action1")]] true; one "Action1" [[IStr (tx "a")]] false].
Theorem C37_names_refuted :
  forall L, exists ast g t text, ast = clashing /\ file_ast ast /\ grammar_from_ast ast = Ok g /\ make_tables ehash g = Ok t /\ quotes_ok g /\ codes_ok ast /\
  parse_generate ast (Lalr g L t) = Ok text /\ ~ exists body c, Module (readable_tokens text) (tx "actions") body /\ Conditional body (tx "Action1") c.
Proof.
  intros L. build clashing g t Eg Et. exists clashing, g, t.
  destruct (parse_generate clashing (Lalr g L t)) as [text| |] eqn:E;
    [|vm_compute in Eg; injection Eg as <-; vm_compute in Et; injection Et as <-; vm_compute in E; discriminate E..].
  exists text. split; auto. split; [is_file|]. split; auto. split; auto. split; [has_quotes Eg|]. split; [has_codes|]. split; auto.
  intros (body & c & (r & M & ->) & (ps & r1 & r2 & D & _)). vm_compute in Eg; injection Eg as <-. vm_compute in Et. injection Et as <-. vm_compute in E. injection E as <-.
  vm_compute in M. injection M as <-. vm_compute in D. discriminate D.
Qed.
Print Assumptions C37_names_refuted.

Example C37_nonvacuous : forall L, exists g t text body c, grammar_from_ast lisp_ast = Ok g /\ make_tables ehash g = Ok t /\
  file_ast lisp_ast /\ quotes_ok g /\ codes_ok lisp_ast /\ names_free lisp_ast /\
  parse_generate lisp_ast (Lalr g L t) = Ok text /\ Module (readable_tokens text) (tx "actions") body /\ Conditional body (tx "Action2") c /\
  nth_error (map fst (spine c)) 0 = Some (pops 2) /\ length (g_prods g) = 7.
Proof.
  intros L. build lisp_ast g t Eg Et. assert (Hf : file_ast lisp_ast) by is_file. assert (Hq : quotes_ok g) by has_quotes Eg. assert (Hc : codes_ok lisp_ast) by has_codes.
  assert (Hn : names_free lisp_ast) by (apply free_b_ok; vm_compute; reflexivity).
  destruct (C37_actions_partial _ _ _ _ L Hf Eg Et Hq Hc Hn) as (text & body & E & HM & _ & _ & HA & _). exists g, t, text, body.
  assert (G : exists p, get_production g 2 = Some p /\ length (p_syms p) = 2 /\ length (g_prods g) = 7).
  { clear E HA Et. vm_compute in Eg. injection Eg as <-. eexists. split; [reflexivity|]. split; reflexivity. }
  destruct G as (p & Hp & H2 & H7). destruct (HA 2 p _ _ (le_S _ _ (le_n 1)) Hp eq_refl) as (c & _ & _ & HC & H & _). rewrite H2 in H. exists c. do 10 (split; auto).
Qed.

(** ** C38 *)

Lemma spine_eval holds c : forall j x, nth_error (spine c) j = Some x ->
  (forall m y, m < j -> nth_error (spine c) m = Some y -> holds (fst y) = true) -> holds (fst x) = false -> ceval holds c = ceval holds (snd x).
Proof.
  induction c as [a|c t IHt e _]; intros j x Hj Hb Hx; [destruct j; discriminate|]. cbn [spine] in Hj. destruct j as [|j]; cbn [nth_error] in Hj.
  - injection Hj as <-. cbn [ceval fst snd] in *. rewrite Hx. reflexivity.
  - cbn [ceval]. pose proof (Hb 0 (c, e) ltac:(lia) eq_refl) as H0. cbn [fst] in H0. rewrite H0. apply (IHt j x Hj); auto.
    intros m y Hm Hy. apply (Hb (S m)); [lia|exact Hy].
Qed.
Lemma nth_combine {A B} (l : list A) : forall (l' : list B) j x y, nth_error l j = Some x -> nth_error l' j = Some y -> nth_error (combine l l') j = Some (x, y).
Proof. induction l as [|a l IH]; intros [|b l'] [|j] x y H1 H2; try discriminate; cbn in *; [congruence|auto]. Qed.
Lemma nth_Forall2 {A B} (P : A -> B -> Prop) l l' : Forall2 P l l' -> forall j x, nth_error l j = Some x -> exists y, nth_error l' j = Some y /\ P x y.
Proof. induction 1 as [|a b l l' H HF IH]; intros [|j] x Hx; try discriminate; cbn in *; [injection Hx as <-; eauto|eauto]. Qed.
Lemma nth_rev {A} (l : list A) j : j < length l -> nth_error (rev l) j = nth_error l (length l - 1 - j).
Proof.
  revert j. induction l as [|a l IH]; intros j Hj; [cbn in Hj; lia|]. cbn [rev length] in *. destruct (Nat.eq_dec j (length l)) as [->|Hn].
  - rewrite nth_error_app2 by (rewrite rev_length; lia). rewrite rev_length, Nat.sub_diag. replace (S (length l) - 1 - length l) with 0 by lia. reflexivity.
  - rewrite nth_error_app1 by (rewrite rev_length; lia). rewrite IH by lia. replace (S (length l) - 1 - j) with (S (length l - 1 - j)) by lia. reflexivity.
Qed.

(** The conditions after the first three are the checks of the named symbols in order, but the
    error reported when check [j] of [m] is the first to fail is that of check [m - 1 - j]. *)
Theorem C38_mirrored :
  forall hash ast g t L k name b, file_ast ast -> grammar_from_ast ast = Ok g -> make_tables hash g = Ok t -> quotes_ok g -> codes_ok ast -> names_free ast ->
  nth_error (rules ast) k = Some (name, b) ->
  exists text body c, parse_generate ast (Lalr g L t) = Ok text /\ Module (readable_tokens text) (tx "actions") body /\
  Conditional body (tx "Action" ++ decn (S k)) c /\
  let cs := checked 1 (ab_syms b) in length (spine c) = 3 + length cs /\
  (forall j cond e, j < 3 -> nth_error (spine c) j = Some (cond, e) -> forall n, hd_error cond <> Some (TWord (tx "__" ++ n))) /\
  forall j i n, nth_error cs j = Some (i, n) ->
    (exists cond e, nth_error (spine c) (3 + j) = Some (cond, e) /\ hd_error cond = Some (TWord (tx "__" ++ n))) /\
    forall holds i' n', first_failure holds c (3 + j) -> nth_error cs (length cs - 1 - j) = Some (i', n') -> names_position (CAtom (ceval holds c)) i' (S k).
Proof.
  intros hash ast g t L k name b Hf Hg Ht Hq Hc Hn Hb. destruct (file_module hash ast g t L Hf Hg Ht Hq Hc) as (text & E & HM).
  pose proof (action_declared ast g k (name, b) Hf Hg Hq Hc Hn Hb) as HC. do 3 eexists. split; [exact E|]. split; [exact HM|]. split; [exact HC|]. cbv zeta.
  assert (Hfb : Forall file_named (ab_syms b)).
  { rewrite rules_bodies in Hb. apply nth_error_In, in_all_bodies in Hb as (q & Hq1 & _ & Hq2). cbn [snd] in Hq2. destruct (proj2 Hf q Hq1) as [_ H]. apply H, Hq2. }
  destruct (checks_checked (S k) _ Hfb 1) as [C1 C2]. set (cs := checked 1 (ab_syms b)) in *. set (ct := checks_toks (S k) 1 (map param_of (ab_syms b))) in *.
  assert (HS : spine (action_ct (action_of (k, (name, b)))) =
    (pop_cond (pop_amount (action_of (k, (name, b)))), CAtom never_err) ::
    (popped_cond (map param_of (ab_syms b)), CAtom (pop_err (S k))) :: (stack_cond, CAtom (stack_err (S k))) ::
    combine (fst ct) (map CAtom (rev (snd ct)))).
  { unfold action_ct. cbn [spine]. do 3 f_equal. unfold valid_ct. apply spine_chain; [rewrite rev_length; apply checks_len|reflexivity]. }
  rewrite HS. pose proof (Forall2_len _ _ _ C1) as L1. pose proof (Forall2_len _ _ _ C2) as L2. split.
  { cbn [length]. rewrite combine_length, map_length, rev_length. lia. }
  split.
  { intros j cond e Hj He n. destruct j as [|[|[|j]]]; [| | |lia]; cbn [nth_error] in He; injection He as <- _; discriminate. }
  intros j i n Hj. assert (Hlt : j < length cs) by (apply nth_error_Some; congruence).
  destruct (nth_Forall2 _ _ _ C1 j _ Hj) as (cond & Hcond & Hhd). cbn [snd] in Hhd.
  destruct (nth_error (map CAtom (rev (snd ct))) j) as [e|] eqn:He; [|apply nth_error_None in He; rewrite map_length, rev_length in He; lia].
  pose proof (nth_combine _ _ _ _ _ Hcond He) as Hx. split; [exists cond, e; split; auto|].
  intros holds i' n' [Hbefore (x & Hx' & Hfail)] Hi'. rewrite (spine_eval holds _ (3 + j) x Hx' Hbefore Hfail). rewrite HS in Hx'. change (nth_error (combine (fst ct) (map CAtom (rev (snd ct)))) j = Some x) in Hx'. rewrite Hx in Hx'. injection Hx' as <-. cbn [snd].
  rewrite nth_error_map, nth_rev in He by lia. destruct (nth_Forall2 _ _ _ C2 _ _ Hi') as (e' & He' & Hp). rewrite <- L2 in He. rewrite He' in He. injection He as <-.
  exact Hp.
Qed.
Print Assumptions C38_mirrored.


(** The position in such an error. *)
Lemma atom_inj q s q' s' : CAtom [TStr q s] = CAtom [TStr q' s'] -> s = s'.
Proof. congruence. Qed.
Lemma names_position_inj e i i' a a' : names_position e i a -> names_position e i' a' -> i = i'.
Proof.
  intros (q & s & E & Hs) (q' & s' & E' & Hs'). rewrite E in E'. apply atom_inj in E'.
  assert (K : forall s i a, s ++ tx " (pos `" ++ decn i ++ tx "`, Action" ++ decn a ++ tx ")" = (s ++ [32%N]) ++ 40%N :: tx "pos `" ++ decn i ++ 96%N :: tx ", Action" ++ decn a ++ tx ")").
  { intros. rewrite <- app_assoc. reflexivity. }
  rewrite !K in E'. apply split_first in E' as [_ E'].
  - apply app_inv_head in E'. assert (D : forall k, ~ In 96%N (decn k)).
    { intros k H. pose proof (dec_digits (N.of_nat k)) as D. rewrite Forall_forall in D. apply D in H. discriminate H. }
    apply split_first in E' as [E' _]; auto. apply decn_inj. exact E'.
  - intros H. apply in_app_or in H as [H|[H|[]]]; [auto|discriminate].
  - intros H. apply in_app_or in H as [H|[H|[]]]; [auto|discriminate].
Qed.
Lemma checked_ge l : forall i x, In x (checked i l) -> i <= fst x.
Proof.
  induction l as [|y l IH]; intros i x H; [destruct H|]. cbn [checked] in H. apply in_app_or in H as [H|H].
  - apply in_map_iff in H as (n & <- & _). auto.
  - apply IH in H. lia.
Qed.
Lemma checked_sorted l : forall i j m x y, j <= m -> nth_error (checked i l) j = Some x -> nth_error (checked i l) m = Some y -> fst x <= fst y.
Proof.
  induction l as [|z l IH]; intros i j m x y Hjm Hj Hm; [destruct j; discriminate|]. cbn [checked] in Hj, Hm. set (a := map _ _) in *.
  assert (Ha : forall w, In w a -> fst w = i) by (intros w Hw; apply in_map_iff in Hw as (n & <- & _); auto).
  destruct (Nat.lt_ge_cases j (length a)) as [Hlt|Hge].
  - rewrite nth_error_app1 in Hj by exact Hlt. apply nth_error_In, Ha in Hj. rewrite Hj. apply nth_error_In, in_app_or in Hm as [Hm|Hm].
    + apply Ha in Hm. lia.
    + apply checked_ge in Hm. lia.
  - rewrite nth_error_app2 in Hj, Hm by lia. eapply (IH (S i) (j - length a) (m - length a)); eauto. lia.
Qed.

(** So the right position is blamed when at most one symbol of the rule has a name. *)
Theorem C38_position_partial :
  forall hash ast g t L k name b, file_ast ast -> grammar_from_ast ast = Ok g -> make_tables hash g = Ok t -> quotes_ok g -> codes_ok ast -> names_free ast ->
  nth_error (rules ast) k = Some (name, b) -> (forall x y, In x (checked 1 (ab_syms b)) -> In y (checked 1 (ab_syms b)) -> fst x = fst y) ->
  exists text body c, parse_generate ast (Lalr g L t) = Ok text /\ Module (readable_tokens text) (tx "actions") body /\
  Conditional body (tx "Action" ++ decn (S k)) c /\
  forall holds j i n, nth_error (checked 1 (ab_syms b)) j = Some (i, n) -> first_failure holds c (3 + j) -> names_position (CAtom (ceval holds c)) i (S k).
Proof.
  intros hash ast g t L k name b Hf Hg Ht Hq Hc Hn Hb Hps. destruct (C38_mirrored hash ast g t L k name b Hf Hg Ht Hq Hc Hn Hb) as (text & body & c & E & M & C & _ & _ & H).
  exists text, body, c. split; auto. split; auto. split; auto. intros holds j i n Hj Hff. destruct (H j i n Hj) as [_ H']. set (cs := checked 1 (ab_syms b)) in *.
  assert (Hlt : j < length cs) by (apply nth_error_Some; congruence).
  destruct (nth_error cs (length cs - 1 - j)) as [[i' n']|] eqn:Ei; [|apply nth_error_None in Ei; lia]. specialize (H' holds i' n' Hff eq_refl).
  apply nth_error_In in Hj, Ei. pose proof (Hps _ _ Hj Ei) as G. cbn [fst] in G. subst i'. exact H'.
Qed.
Print Assumptions C38_position_partial.

(** With two named symbols it is not: every such rule blames a wrong position. *)
Theorem C38_two_named_refuted :
  forall hash ast g t L k name b x y, file_ast ast -> grammar_from_ast ast = Ok g -> make_tables hash g = Ok t -> quotes_ok g -> codes_ok ast -> names_free ast ->
  nth_error (rules ast) k = Some (name, b) -> In x (checked 1 (ab_syms b)) -> In y (checked 1 (ab_syms b)) -> fst x <> fst y ->
  exists text body c, parse_generate ast (Lalr g L t) = Ok text /\ Module (readable_tokens text) (tx "actions") body /\
  Conditional body (tx "Action" ++ decn (S k)) c /\
  exists holds j i n, nth_error (checked 1 (ab_syms b)) j = Some (i, n) /\ first_failure holds c (3 + j) /\ ~ names_position (CAtom (ceval holds c)) i (S k).
Proof.
  intros hash ast g t L k name b x y Hf Hg Ht Hq Hc Hn Hb Hx Hy Hne. destruct (C38_mirrored hash ast g t L k name b Hf Hg Ht Hq Hc Hn Hb) as (text & body & c & E & M & C & _ & H3 & H).
  exists text, body, c. split; auto. split; auto. split; auto. pose proof (checked_sorted (ab_syms b) 1) as HS. set (cs := checked 1 (ab_syms b)) in *.
  destruct (nth_error cs 0) as [[i n]|] eqn:E0; [|apply nth_error_None in E0; destruct cs; [destruct Hx|cbn in E0; lia]].
  destruct (nth_error cs (length cs - 1 - 0)) as [[i' n']|] eqn:Ei; [|apply nth_error_None in Ei; destruct cs; [destruct Hx|cbn in Ei; lia]].
  assert (Hii : i <> i').
  { intros <-. apply Hne. apply In_nth_error in Hx as (jx & Hx). apply In_nth_error in Hy as (jy & Hy).
    assert (Lx : jx < length cs) by (apply nth_error_Some; congruence). assert (Ly : jy < length cs) by (apply nth_error_Some; congruence).
    pose proof (HS 0 jx _ _ ltac:(lia) E0 Hx). pose proof (HS 0 jy _ _ ltac:(lia) E0 Hy).
    pose proof (HS jx (length cs - 1 - 0) _ _ ltac:(lia) Hx Ei). pose proof (HS jy (length cs - 1 - 0) _ _ ltac:(lia) Hy Ei). cbn [fst] in *. lia. }
  exists (fun l => match hd_error l with Some (TWord w) => negb (eqb w (tx "__" ++ n)) | _ => true end), 0, i, n. split; auto.
  destruct (H 0 i n E0) as [(cond & e & Hs & Hhd) Hm].
  match goal with |- first_failure ?h _ _ /\ _ => assert (FF : first_failure h c (3 + 0)) end.
  { split.
    - intros m [cd e'] Hlt Hm'. cbn [fst]. pose proof (H3 m cd e' ltac:(lia) Hm' n) as Hh. destruct (hd_error cd) as [[w|w|w|w|]|]; auto.
      apply negb_true_iff, eqb_neq. congruence.
    - exists (cond, e). split; auto. cbn [fst]. rewrite Hhd, eqb_refl. reflexivity. }
  split; auto. intros HP. apply Hii. eapply names_position_inj; [exact HP|]. eapply Hm; eauto.
Qed.
Print Assumptions C38_two_named_refuted.

(** The rule [Exprs = eee: Expr es: Exprs] of the committed grammar is one; the others name one
    symbol. *)
Example C38_nonvacuous : exists g t, grammar_from_ast lisp_ast = Ok g /\ make_tables ehash g = Ok t /\
  file_ast lisp_ast /\ quotes_ok g /\ codes_ok lisp_ast /\ names_free lisp_ast /\
  (exists name b, nth_error (rules lisp_ast) 1 = Some (name, b) /\ checked 1 (ab_syms b) = [(1, tx "eee"); (2, tx "es")]) /\
  (exists name b, nth_error (rules lisp_ast) 4 = Some (name, b) /\ checked 1 (ab_syms b) = [(1, tx "str"); (1, tx "str")]).
Proof.
  build lisp_ast g t Eg Et. exists g, t. split; auto. split; auto. split; [is_file|]. split; [has_quotes Eg|]. split; [has_codes|].
  split; [apply free_b_ok; vm_compute; reflexivity|]. split; do 2 eexists; split; reflexivity.
Qed.

(** ** C39 *)

Lemma checks_at idx l : forall i m p, nth_error l m = Some p -> forall c, In c (fst (check_toks idx (i + m) p)) -> In c (fst (checks_toks idx i l)).
Proof.
  induction l as [|q l IH]; intros i m p Hm c Hc; [destruct m; discriminate|]. cbn [checks_toks fst]. apply in_or_app. destruct m as [|m]; cbn [nth_error] in Hm.
  - injection Hm as ->. rewrite Nat.add_0_r in Hc. auto.
  - right. apply (IH (S i) m p Hm). rewrite Nat.add_succ_comm. exact Hc.
Qed.
Lemma in_combine_1 {A B} (l : list A) : forall (l' : list B) x, length l = length l' -> In x l -> exists y, In (x, y) (combine l l').
Proof.
  induction l as [|a l IH]; intros [|b l'] x E H; try discriminate; [destruct H|]. cbn in E. injection E as E. destruct H as [->|H]; [exists b; left; auto|].
  destruct (IH l' x E H) as (y & Hy). exists y. right. auto.
Qed.
Lemma action_check a m p c : nth_error (ga_inputs a) m = Some p -> In c (fst (check_toks (ga_idx a) (1 + m) p)) -> exists e, In (c, e) (spine (action_ct a)).
Proof.
  intros Hm Hc. apply (checks_at (ga_idx a) _ 1 m p Hm) in Hc. unfold action_ct. cbn [spine]. unfold valid_ct.
  rewrite spine_chain; [|rewrite rev_length; apply checks_len|reflexivity].
  destruct (in_combine_1 (fst (checks_toks (ga_idx a) 1 (ga_inputs a))) (map CAtom (rev (snd (checks_toks (ga_idx a) 1 (ga_inputs a))))) c) as (e & He); auto.
  - rewrite map_length, rev_length. apply checks_len.
  - exists e. right. right. right. exact He.
Qed.

(** The condition that gives a named symbol its type has the right form for literals and
    non-terminals. *)
Theorem C39_constraint_partial :
  forall hash ast g t L k name b i n x, file_ast ast -> grammar_from_ast ast = Ok g -> make_tables hash g = Ok t -> quotes_ok g -> codes_ok ast -> names_free ast ->
  nth_error (rules ast) k = Some (name, b) -> nth_error (ab_syms b) i = Some (INamed (Some n) x) -> (forall r, x <> IReg r) ->
  exists text body c cond e, parse_generate ast (Lalr g L t) = Ok text /\ Module (readable_tokens text) (tx "actions") body /\
  Conditional body (tx "Action" ++ decn (S k)) c /\ In (cond, e) (spine c) /\ constrained n x cond.
Proof.
  intros hash ast g t L k name b i n x Hf Hg Ht Hq Hc Hn Hb Hi Hx. destruct (file_module hash ast g t L Hf Hg Ht Hq Hc) as (text & E & HM).
  pose proof (action_declared ast g k (name, b) Hf Hg Hq Hc Hn Hb) as HC.
  assert (Hin : nth_error (ga_inputs (action_of (k, (name, b)))) i = Some (param_of (INamed (Some n) x))).
  { cbn [action_of ga_inputs snd]. rewrite nth_error_map, Hi. reflexivity. }
  pose proof (file_acts _ _ Hf Hg Hq Hc) as [_ Ha]. assert (Hr : readable_param (param_of (INamed (Some n) x))).
  { assert (In (action_of (k, (name, b))) (map action_of (enum (all_bodies ast)))) as H by (apply in_map, enum_In; exact Hb).
    apply Ha in H as [_ _ H]. rewrite Forall_forall in H. apply H. eapply nth_error_In; exact Hin. }
  assert (G : exists cond, In cond (fst (check_toks (S k) (1 + i) (param_of (INamed (Some n) x)))) /\ constrained n x cond).
  { assert (Hfx : file_symbol x).
    { rewrite rules_bodies in Hb. apply nth_error_In, in_all_bodies in Hb as (q & Hq1 & _ & Hq2). cbn [snd] in Hq2. destruct (proj2 Hf q Hq1) as [_ H].
      destruct (H b Hq2) as [_ HF]. rewrite Forall_forall in HF. apply nth_error_In, HF in Hi. apply Hi. }
    destruct x as [s|n' ty|s|r| |]; try destruct Hfx as [].
    - cbn [param_of check_toks fst readable_param] in *. destruct Hr as [_ Hr]. apply unq0_ok in Hr. eexists. split; [right; left; reflexivity|].
      eexists [us n; TPun 91; TStr 39 (tx "token"); TPun 93; TPun 91; TStr 39 (tx "value"); TPun 93; word "extends"], _, []. split; [reflexivity|].
      cbn [type_of]. eauto.
    - cbn [param_of check_toks fst]. eexists. split; [left; reflexivity|].
      eexists [us n; word "extends"; TPun 123; word "kind"; TPun 58; TStr 34 s; TPun 44; word "value"; TPun 58], _, [TPun 125]. split; [reflexivity|]. reflexivity.
    - destruct (Hx r eq_refl). }
  destruct G as (cond & Hc1 & Hc2). destruct (action_check (action_of (k, (name, b))) i _ cond Hin Hc1) as (e & He).
  do 5 eexists. split; [exact E|]. split; [exact HM|]. split; [exact HC|]. split; eauto.
Qed.
Print Assumptions C39_constraint_partial.

(** For a named regex it never has: the keyword and the type are run together. *)
Theorem C39_regex_refuted :
  forall hash ast g t L k name b i n r, file_ast ast -> grammar_from_ast ast = Ok g -> make_tables hash g = Ok t -> quotes_ok g -> codes_ok ast -> names_free ast ->
  nth_error (rules ast) k = Some (name, b) -> nth_error (ab_syms b) i = Some (INamed (Some n) (IReg r)) ->
  exists text body c cond e, parse_generate ast (Lalr g L t) = Ok text /\ Module (readable_tokens text) (tx "actions") body /\
  Conditional body (tx "Action" ++ decn (S k)) c /\ In (cond, e) (spine c) /\
  (exists a, cond = a ++ [word "infer"; TWord n; TWord (tx "extendsstring")]) /\ ~ constrained n (IReg r) cond.
Proof.
  intros hash ast g t L k name b i n r Hf Hg Ht Hq Hc Hn Hb Hi. destruct (file_module hash ast g t L Hf Hg Ht Hq Hc) as (text & E & HM).
  pose proof (action_declared ast g k (name, b) Hf Hg Hq Hc Hn Hb) as HC.
  assert (Hin : nth_error (ga_inputs (action_of (k, (name, b)))) i = Some (param_of (INamed (Some n) (IReg r)))).
  { cbn [action_of ga_inputs snd]. rewrite nth_error_map, Hi. reflexivity. }
  destruct (action_check (action_of (k, (name, b))) i _ (value_cond n ++ [word "extendsstring"]) Hin) as (e & He); [right; left; reflexivity|].
  do 5 eexists. split; [exact E|]. split; [exact HM|]. split; [exact HC|]. split; [exact He|]. split.
  - exists [us n; TPun 91; TStr 39 (tx "token"); TPun 93; TPun 91; TStr 39 (tx "value"); TPun 93; word "extends"]. reflexivity.
  - intros (a & ty & z & Ea & _). unfold value_cond in Ea. cbn [app] in Ea.
    do 11 (destruct a as [|? a]; cbn [app] in Ea; [discriminate Ea|injection Ea as _ Ea]). destruct a; discriminate Ea.
Qed.
Print Assumptions C39_regex_refuted.

(** The committed grammar has named symbols of every kind. *)
Example C39_nonvacuous : exists g t, grammar_from_ast lisp_ast = Ok g /\ make_tables ehash g = Ok t /\
  file_ast lisp_ast /\ quotes_ok g /\ codes_ok lisp_ast /\ names_free lisp_ast /\
  (exists name b, nth_error (rules lisp_ast) 0 = Some (name, b) /\ nth_error (ab_syms b) 1 = Some (INamed (Some (tx "exprs")) (INon (tx "Exprs")))) /\
  (exists name b, nth_error (rules lisp_ast) 4 = Some (name, b) /\ nth_error (ab_syms b) 0 = Some (INamed (Some (tx "str")) (IStr (tx "add")))) /\
  (exists name b, nth_error (rules lisp_ast) 5 = Some (name, b) /\ nth_error (ab_syms b) 0 = Some (INamed (Some (tx "int")) (IReg (tx "[1-9]+[0-9]*")))).
Proof.
  build lisp_ast g t Eg Et. exists g, t. split; auto. split; auto. split; [is_file|]. split; [has_quotes Eg|]. split; [has_codes|].
  split; [apply free_b_ok; vm_compute; reflexivity|]. split; [|split]; do 2 eexists; split; reflexivity.
Qed.
