(** Property C87: writing an expression down. *)
From Coq Require Import ZArith Ascii String.
From Verif Require Import Base Text Regex Nfa Dfa Lex LexSpec LexLoop LexProofs Utf8Spec Utf8Proofs Grammar GrammarSpec GrammarProofs First Item Table TableProofs TableFacts LexGrammar LexGrammarProofs
  Parse ParseSpec Auto ParseProofs ParseTerm TreeFacts PropsParse Lalr EndSpec EndProofs PropsGrammar PropsEnd Witness
  LexGen LexGenProofs LexGenLexer TsText TsTextFacts TsScan TsTables TsModule TsModuleFacts ParseGenSpec ParseGen ParseGenProofs ParseGenFile ParseGenEmit ParseGenCheck PropsLexGen PropsParseGen Lisp
  TsUtil TsLex TsLexProofs PropsTsLex TsParse TsParseSpec TsParseProofs PropsTsParse
  GrammarFile GrammarFileSpec GrammarFileProofs PropsGrammarFile PropsWhole PrintSpec PropsPrint IsoSpec MixSpec MixProofs PropsMix MixEvalSpec MixEval PropsMixType MixUseSpec MixUse PropsMixUse MixPrintSpec MixPrint.
Local Open Scope list_scope.

Lemma leaves_of {A B} (Q : A -> B -> Prop) l l' : Forall2 Q l l' -> Forall (fun xu => Q (fst xu) (snd xu)) (combine l l') /\ map fst (combine l l') = l /\ map snd (combine l l') = l'.
Proof. induction 1 as [|x y l l' H _ (IH1 & IH2 & IH3)]; cbn [combine map fst snd]; [auto|]. split; [constructor; auto|]. split; f_equal; auto. Qed.

(** Every expression can be written: with some brackets added (none, if no operand's level is too low, and never more than any other way of adding them needs) its texts one after the other with white
    space between them are parsed back to it. *)
Theorem C87_print :
  forall parse hash ast g l M hs, file_ast ast -> mixfix M ast -> grammar_from_ast ast = Ok g -> lalr_new parse hash g = Ok l -> no_clash g ->
  Forall2 (fun x h => sym_hir parse x = Some h) (lex_syms g) hs -> split_refines hs -> Forall productive hs -> no_white_texts parse g ->
  forall br, brackets_ok M (own_text parse g) br ->
  forall e, well_spelt M (own_text parse g) 0 e ->
  exists e' tr, tadds M br e e' /\ (mproper M 0 0 (bare e) -> e' = e) /\ (forall x, tadds M br e x -> mproper M 0 0 (bare x) -> tadds M br e' x) /\ tree_ok g tr /\ root g tr = Some (SNon (mx_name M 0 0)) /\ mmeans g M tr (bare e') /\
    (forall x, mmeans g M tr x -> x = bare e') /\
    forall s, Printed (combine (mwritten M (bare e')) (texts M e')) s -> ascii s -> lalr_parse l s = Ok (postorder tr).
Proof.
  intros parse hash ast g l M hs Hf HM Hg Hl Hno Hhs Hsd Hpr Hnw br Hbr e He. pose proof (m_ok _ _ HM) as Okm.
  destruct (m_start _ _ _ Hg HM) as (st & Hst & En & W & _).
  assert (Hcl : closed g (l_tables l)) by (destruct (new_parts _ _ _ _ Hl) as (_ & _ & Ht); exact (m_closed _ _ _ Hg Hf HM hash _ Ht)).
  destruct (tbracketed M _ unit (fun _ _ _ _ => tt) br Okm Hbr e 0 0 He ltac:(lia)) as (e' & A1 & A2 & A3 & A4 & _ & A6).
  destruct (tree_out g M (m_R' _ _ _ Hg HM) Okm _ 0 0 A2) as (p & ts & Ho & Hr & Hm & Hy).
  exists e', (Node p ts). split; auto. split; auto. split; auto. split; auto. split; auto. split; auto. split; [intros x Hx; eapply means_fun; eauto|].
  intros s Hs Ha. destruct (leaves_of _ _ _ (spelt M _ e' 0 A3)) as (L1 & L2 & _).
  destruct (C69_print_parse_partial parse hash ast g st l hs Hf Hg Hst Hl Hno Hhs Hsd Hpr Hnw _ s L1 Hs Ha) as [H _].
  apply H; auto; [rewrite En; auto|rewrite L2; auto].
Qed.
Print Assumptions C87_print.

(** And its type is the value of the expression, if the brackets do not change it, within the limits of the type-level lexer and parser. *)
Theorem C87_type :
  forall parse hash text ast g l M hs, file_says text ast -> mixfix M ast -> grammar_from_ast ast = Ok g -> lalr_new parse hash g = Ok l ->
  quotes_ok g -> codes_ok ast -> kinds_distinct g -> (forall s, named ast (IStr s) -> unq 39 s = Some s) ->
  Forall2 (fun x h => sym_hir parse x = Some h) (lex_syms g) hs -> split_refines hs -> Forall productive hs -> no_white_texts parse g ->
  exists ltext T ptext P, lex_generate (l_lexer l) = Ok ltext /\ ReadLex ltext T /\ parse_generate ast l = Ok ptext /\ ReadParse ptext P /\
  forall V size code has_type regex_holds chars op br e, fits size (l_lexer l) -> own_codes chars ->
  well_typed code has_type regex_holds ast -> (forall r v, named ast (IReg r) -> regex_holds (Some (TLit v)) = true) ->
  interprets V g M code op -> brackets_ok M (own_text parse g) br -> transparent M op br -> well_spelt M (own_text parse g) 0 e ->
  exists e', tadds M br e e' /\ (mproper M 0 0 (bare e) -> e' = e) /\ (forall x, tadds M br e x -> mproper M 0 0 (bare x) -> tadds M br e' x) /\ mproper M 0 0 (bare e') /\
    forall s, Printed (combine (mwritten M (bare e')) (texts M e')) s -> (forall c, In c s -> map_get c chars <> None /\ (c <= N.of_nat size)%N) -> length s <= size ->
    length (texts M e') + rules_used M (bare e') 0 < 50 ->
    ts_pipeline size chars T P (EmitProduction V size ast code has_type regex_holds) s = Some (PStack [SymNon (mx_name M 0 0) (tvalue M op e)]).
Proof.
  intros parse hash text ast g l M hs Hfs HM Hg Hl Hq Hc Hk Hlit Hhs Hsd Hpr Hnw. pose proof (m_ok _ _ HM) as Okm.
  assert (Hf : file_ast ast) by (apply (C52_file_ast text), C51_reading, Hfs).
  destruct (m_start _ _ _ Hg HM) as (st & Hst & En & W & _).
  assert (Hcl : closed g (l_tables l)) by (destruct (new_parts _ _ _ _ Hl) as (_ & _ & Ht); exact (m_closed _ _ _ Hg Hf HM hash _ Ht)).
  destruct (C69_print_type_partial parse hash text ast g l st hs Hfs Hg Hst Hl Hq Hc Hk Hlit Hhs Hsd Hpr Hnw) as (ltext & T & ptext & P & E1 & E2 & E3 & E4 & H).
  exists ltext, T, ptext, P. split; auto. split; auto. split; auto. split; auto.
  intros V size code has_type regex_holds chars op br e Hfit Hown Hwt Hreg Hop Hbr Htr He.
  destruct (tbracketed M _ V op br Okm Hbr e 0 0 He ltac:(lia)) as (e' & A1 & A2 & A3 & A4 & A5 & A6). specialize (A5 Htr).
  exists e'. split; auto. split; auto. split; auto. split; auto. intros s Hs Hin Hlen Hn.
  assert (Hok : MixProofs.ok M 0 0) by (split; [apply (mk_sort _ Okm)|lia]).
  destruct (tree_out g M (m_R' _ _ _ Hg HM) Okm _ 0 0 A2) as (p & ts & Ho & Hr & Hm & Hy).
  destruct (tree_ev g M (m_wf _ _ _ Hg HM) (m_fresh _ _ Hf HM) (m_R _ _ _ Hg HM) Okm V code op Hop (Node p ts) 0 0 Hok Ho Hr) as (e2 & G1 & G2 & G3 & G4).
  rewrite <- (means_fun g M Okm _ _ _ Hm G1) in *.
  destruct (leaves_of _ _ _ (spelt M _ e' 0 A3)) as (L1 & L2 & L3).
  destruct (H V size code has_type regex_holds chars _ s Hfit Hown Hin Hlen Hwt Hreg L1 Hs (Node p ts) Ho) as (us & v & H1 & H2 & H3).
  - rewrite En. exact Hr.
  - rewrite L2. exact Hy.
  - auto.
  - rewrite G3. rewrite <- (map_length snd), L3. exact Hn.
  - rewrite En in *. rewrite H3. destruct (G4 _ _ H2 (texts M e')) as (v' & Ev & G5).
    { rewrite <- L3. clear -H1. induction H1 as [|x y l l' (n & _ & ->) _ IH]; cbn [map]; constructor; auto. constructor. }
    injection Ev as <-. specialize (G5 []). rewrite app_nil_r in G5. pose proof (value_spelt M _ V op e' 0 A3 []) as G6. rewrite app_nil_r in G6. congruence.
Qed.
Print Assumptions C87_type.

(** The calculator of C85: (3+44)*2 is written with brackets and has type 94. *)
Definition num_br (s : nat) : bracket := Bracket par_ (tx "(") (tx ")").
Definition lit_ (w : string) : texp := TOp 0 2 (Form false digits [] false) [tx w] [].
Definition num_ex : texp := TOp 0 1 (Form true (tk "*") [] true) [tx "*"] [TOp 0 0 (Form true (tk "+") [] true) [tx "+"] [lit_ "3"; lit_ "44"]; lit_ "2"].
Local Ltac own n := apply (own_lit _ _ n); [reflexivity|discriminate|intros j Hj; repeat (destruct j as [|j]; [eexists; split; [reflexivity|discriminate]|]); lia].
Local Ltac dig := first [apply (L_class _ 49 57); [left; reflexivity|lia]|apply (L_class _ 48 57); [left; reflexivity|lia]].
Local Ltac own_digits := split; [discriminate|]; exists 5; split; [reflexivity|]; split;
  [exists digits; split; [reflexivity|]; eexists; split; [reflexivity|]|
   intros j x Hj Hx Hl; destruct j as [|[|[|[|[|j]]]]]; [injection Hx as <-; discriminate Hl..|lia]].
Example C87_nonvacuous :
  exists ast g l c hs, file_says file_num ast /\ mixfix m_num ast /\ grammar_from_ast ast = Ok g /\ lalr_new lisp_regex ehash g = Ok l /\
  quotes_ok g /\ codes_ok ast /\ kinds_distinct g /\ (forall s, named ast (IStr s) -> unq 39 s = Some s) /\ no_clash g /\
  Forall2 (fun x h => sym_hir lisp_regex x = Some h) (lex_syms g) hs /\ split_refines hs /\ Forall productive hs /\ no_white_texts lisp_regex g /\
  fits 200 (l_lexer l) /\ own_codes num_chars /\ well_typed num_code (fun _ _ => true) (fun _ => true) ast /\ interprets Z g m_num num_code num_op /\
  brackets_ok m_num (own_text lisp_regex g) num_br /\ transparent m_num num_op num_br /\ well_spelt m_num (own_text lisp_regex g) 0 num_ex /\
  ~ mproper m_num 0 0 (bare num_ex) /\ tvalue m_num num_op num_ex = 94%Z /\
  lex_ctx_new (l_lexer l) = Ok c /\
  ts_pipeline 200 num_chars (tables_of c) (the_tables g (l_tables l)) (EmitProduction Z 200 ast num_code (fun _ _ => true) (fun _ => true)) (tx "( 3 + 44 ) * 2") =
    Some (PStack [SymNon (tx "E") 94%Z]).
Proof.
  destruct C85_nonvacuous as (ast & g & l & c & hs & H1 & H2 & H3 & H4 & H5 & H6 & H7 & H8 & H9 & H10 & H11 & H12 & H13 & H14 & H15 & H16 & _).
  exists ast, g, l. assert (Ea : parse_grammar file_num = Ok ast) by (apply (C51_reading file_num), H1).
  pose proof (kinds_no_clash g H5 H7) as Hno. exists c, hs. split; auto. split; auto. split; auto. split; auto. split; auto. split; auto. split; auto. split; auto. split; auto. split; auto. split; auto. split; auto.
  split. { apply (no_white_ok _ _ hs H9). clear - Ea H3 H9. vm_compute in Ea. injection Ea as <-. vm_compute in H3. injection H3 as <-. repeat match goal with H : Forall2 _ _ _ |- _ => inversion H; clear H; subst end.
    repeat match goal with H : sym_hir _ _ = Some _ |- _ => vm_compute in H; injection H as <- end. vm_compute. reflexivity. }
  split; auto. split; auto. split; auto. split; auto.
  assert (HO : forall w, w = tx "(" \/ w = tx ")" \/ w = tx "*" \/ w = tx "+" -> own_text lisp_regex g (Grammar.SStr w) w).
  { clear - Ea H3. vm_compute in Ea. injection Ea as <-. vm_compute in H3. injection H3 as <-. intros w [->|[->|[->| ->]]]; [own 0|own 1|own 2|own 3]. }
  assert (HD : forall w, w = tx "3" \/ w = tx "44" \/ w = tx "2" -> own_text lisp_regex g digits w).
  { clear - Ea H3. vm_compute in Ea. injection Ea as <-. vm_compute in H3. injection H3 as <-. intros w [->|[->| ->]]; own_digits.
    - apply (L_concat_cons _ _ [51]%N []); [apply (L_plus _ [51]%N []); [dig|constructor]|]. apply (L_concat_cons _ _ [] []); [constructor|constructor].
    - apply (L_concat_cons _ _ [52]%N [52]%N); [apply (L_plus _ [52]%N []); [dig|constructor]|]. apply (L_concat_cons _ _ [52]%N []); [|constructor]. apply (L_star_cons _ [52]%N []); [dig|constructor].
    - apply (L_concat_cons _ _ [50]%N []); [apply (L_plus _ [50]%N []); [dig|constructor]|]. apply (L_concat_cons _ _ [] []); [constructor|constructor]. }
  split. { intros s Hs. cbn in Hs. assert (s = 0) as -> by lia. split; [split; [apply num_list_all; vm_compute; tauto|]; split; [reflexivity|]; split; [reflexivity|]; eexists; reflexivity|].
    split; [apply (HO (tx "(")); auto|]. intros t [Ht|[]]. injection Ht as <-. apply (HO (tx ")")). auto. }
  split; [intros s v _; reflexivity|].
  split.
  { assert (HL : forall w, w = "3"%string \/ w = "44"%string \/ w = "2"%string -> well_spelt m_num (own_text lisp_regex g) 0 (lit_ w)).
    { intros w Hw. constructor; [apply num_list_all; vm_compute; tauto| |constructor]. constructor; [|constructor]. apply HD. destruct Hw as [->|[->| ->]]; auto. }
    constructor; [apply num_list_all; vm_compute; tauto| |].
    - constructor; [|constructor]. apply (HO (tx "*")). auto.
    - constructor; [|constructor; [apply HL; auto|constructor]].
      constructor; [apply num_list_all; vm_compute; tauto| |].
      + constructor; [|constructor]. apply (HO (tx "+")). auto.
      + constructor; [apply HL; auto|constructor; [apply HL; auto|constructor]]. }
  split. { intros H. inversion H as [? ? ? ? ? _ _ HF]; subst. vm_compute in HF. inversion HF as [|? ? ? ? HA _]; subst. inversion HA as [? ? ? ? ? Hj _ _]; subst. cbn in Hj. lia. }
  split; [vm_compute; reflexivity|]. split; auto.
  vm_compute in Ea. injection Ea as <-. vm_compute in H3. injection H3 as <-. vm_compute in H4. injection H4 as <-. vm_compute in H16. injection H16 as <-. vm_compute. reflexivity.
Qed.
