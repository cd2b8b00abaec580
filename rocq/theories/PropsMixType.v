(** Property C85: the type of an expression. *)
From Coq Require Import ZArith Ascii String.
From Verif Require Import Base Text Regex Nfa Dfa Lex LexSpec LexLoop LexProofs Utf8Spec Utf8Proofs Grammar GrammarSpec GrammarProofs First Item Table TableProofs TableFacts LexGrammar LexGrammarProofs
  Parse ParseSpec Auto ParseProofs ParseTerm TreeFacts PropsParse Lalr EndSpec EndProofs PropsGrammar PropsEnd Witness
  LexGen LexGenProofs LexGenLexer TsText TsTextFacts TsScan TsTables TsModule TsModuleFacts ParseGenSpec ParseGen ParseGenProofs ParseGenFile ParseGenEmit ParseGenCheck PropsLexGen PropsParseGen Lisp
  TsUtil TsLex TsLexProofs PropsTsLex TsParse TsParseSpec TsParseProofs PropsTsParse
  GrammarFile GrammarFileSpec GrammarFileProofs PropsGrammarFile PropsWhole IsoSpec MixSpec MixProofs PropsMix MixEvalSpec MixEval.
Local Open Scope list_scope.

Lemma carried_texts toks us : Forall2 carries toks us -> Forall2 text_of us (map snd toks).
Proof. intros H. induction H as [|[[p x] w] u toks us (n & _ & ->) _ IH]; constructor; auto. constructor. Qed.

(** The number of reductions: one for each operator and for each level an operand is above the one it needs. *)
Theorem C85_reductions :
  forall ast g M, grammar_from_ast ast = Ok g -> file_ast ast -> mixfix M ast ->
  forall hash t, make_tables hash g = Ok t ->
  forall tokens w ps, ParseSpec.ended tokens w -> parse_impl g t tokens = Ok ps ->
  exists e, mproper M 0 0 e /\ symbols g w (mwritten M e) /\ length ps = rules_used M e 0.
Proof.
  intros ast g M Hg Hf HM hash t Ht tokens w ps Hend H. pose proof (m_ok _ _ HM) as Okm.
  destruct (C84_parse _ _ _ Hg Hf HM hash t Ht tokens w Hend) as (A & _). apply A in H as (e & tr & H1 & H2 & (Ho & Hr & Hy) & H4 & ->).
  exists e. split; auto. split; auto.
  destruct (tree_ev g M (m_wf _ _ _ Hg HM) (m_fresh _ _ Hf HM) (m_R _ _ _ Hg HM) Okm unit (fun _ _ => tt) (fun _ _ _ _ => tt)) with (tr := tr) (s := 0) (i := 0) as (e' & G1 & _ & G3 & _); auto.
  - intros p pr _ _. split; [intros ? ? []; reflexivity|reflexivity].
  - split; [apply (mk_sort _ Okm)|lia].
  - rewrite (means_fun g M Okm tr _ _ H4 G1). exact G3.
Qed.
Print Assumptions C85_reductions.

(** When the pieces refine the ranges (C09), within the limits of the arithmetic tables: the text has a type exactly if
    what maximal munch finds is an expression of less than 50 tokens and reductions, followed by nothing that the lexer
    rejects; the type is then the value of the expression, from the texts found.  Missing: other lexers and texts (C57). *)
Theorem C85_type_partial :
  forall parse hash text ast g l M hs, file_says text ast -> mixfix M ast -> grammar_from_ast ast = Ok g -> lalr_new parse hash g = Ok l ->
  quotes_ok g -> codes_ok ast -> kinds_distinct g -> (forall s, named ast (IStr s) -> unq 39 s = Some s) ->
  Forall2 (fun x h => sym_hir parse x = Some h) (lex_syms g) hs -> split_refines hs -> Forall productive hs ->
  exists ltext T ptext P, lex_generate (l_lexer l) = Ok ltext /\ ReadLex ltext T /\ parse_generate ast l = Ok ptext /\ ReadParse ptext P /\
  forall V size code has_type regex_holds chars op input, fits size (l_lexer l) -> own_codes chars ->
  (forall c, In c input -> map_get c chars <> None /\ (c <= N.of_nat size)%N) -> length input <= size ->
  well_typed code has_type regex_holds ast -> (forall r v, named ast (IReg r) -> regex_holds (Some (TLit v)) = true) ->
  interprets V g M code op ->
  let X := ts_pipeline size chars T P (EmitProduction V size ast code has_type regex_holds) input in
  exists ts r syms, Tokenize (EndSpec.begins parse g) (is_sym parse g) 0 input ts r /\
  Forall2 (fun x s => nth_error (lex_syms g) (snd (fst x)) = Some s) ts syms /\
  forall s, X = Some (PStack s) <->
    unfinished (EndSpec.begins parse g) input ts r /\
    exists e, mproper M 0 0 e /\ mwritten M e = syms /\ length syms + rules_used M e 0 < 50 /\
      s = [SymNon (mx_name M 0 0) (fst (meval V M op e (map snd ts)))].
Proof.
  intros parse hash text ast g l M hs Hfs HM Hg Hl Hq Hc Hk Hlit Hhs Hsd Hpr.
  assert (Hf : file_ast ast) by (apply (C52_file_ast text), C51_reading, Hfs). pose proof (m_ok _ _ HM) as Okm.
  destruct (m_start _ _ _ Hg HM) as (st & Hst & En & W & _).
  assert (Hcl : closed g (l_tables l)) by (destruct (new_parts _ _ _ _ Hl) as (_ & _ & Ht); exact (m_closed _ _ _ Hg Hf HM hash _ Ht)).
  destruct (C57_accepts_iff_partial parse hash text ast g l st hs Hfs Hg Hst Hl Hq Hc Hk Hlit Hhs Hsd Hpr) as (ltext & T & ptext & P & E1 & E2 & E3 & E4 & H).
  exists ltext, T, ptext, P. split; auto. split; auto. split; auto. split; auto.
  intros V size code has_type regex_holds chars op input Hfit Hown Hin Hlen Hwt Hreg Hop X.
  destruct (H V size code has_type regex_holds chars input Hfit Hown Hin Hlen Hwt Hreg) as (ts & r & syms & HT & HF & _ & H1 & H2). fold X in H1, H2. clear H. rewrite En in *.
  exists ts, r, syms. split; auto. split; auto.
  assert (Hok : MixProofs.ok M 0 0) by (split; [apply (mk_sort _ Okm)|lia]).
  assert (EV : unfinished (EndSpec.begins parse g) input ts r -> forall tr, tree_ok g tr -> root g tr = Some (SNon (mx_name M 0 0)) -> yield tr = syms -> length syms + length (postorder tr) < 50 ->
    forall e, mmeans g M tr e -> mproper M 0 0 e /\ length (postorder tr) = rules_used M e 0 /\ X = Some (PStack [SymNon (mx_name M 0 0) (fst (meval V M op e (map snd ts)))])).
  { intros Hun tr Ho Hr Hy Hn e Hm. destruct (H2 Hun tr Ho Hr Hy (or_introl Hcl) Hn) as (toks & us & v & T1 & T2 & T3 & T4 & T5).
    destruct (tree_ev g M (m_wf _ _ _ Hg HM) (m_fresh _ _ Hf HM) (m_R _ _ _ Hg HM) Okm V code op Hop tr 0 0 Hok Ho Hr) as (e' & G1 & G2 & G3 & G4).
    rewrite <- (means_fun g M Okm tr _ _ Hm G1) in *. split; auto. split; auto.
    destruct (G4 _ _ T4 _ (carried_texts _ _ T3)) as (v' & Ev & G5). injection Ev as <-. specialize (G5 []). rewrite app_nil_r in G5.
    replace (map snd ts) with (map snd toks); [rewrite G5; exact T5|].
    assert (Eq : map snd (toks_texts toks) = map snd (map drop_idx ts)) by (rewrite T1; reflexivity). unfold toks_texts in Eq. rewrite !map_map in Eq. cbn [snd drop_idx] in Eq.
    etransitivity; [exact Eq|]. apply map_ext. intros [[a b] c]. reflexivity. }
  intros s. split.
  - intros HX. destruct (proj1 (H1 Hcl) (ex_intro _ s HX)) as (Hun & tr & Ho & Hr & Hy & Hn). split; auto.
    destruct (tree_in g M (m_wf _ _ _ Hg HM) (m_fresh _ _ Hf HM) (m_R _ _ _ Hg HM) Okm tr 0 0 Hok Ho Hr) as (e & G1 & G2 & G3).
    destruct (EV Hun tr Ho Hr Hy Hn e G1) as (_ & G4 & G5). exists e. split; auto. split; [congruence|]. split; [rewrite <- G4; exact Hn|]. rewrite HX in G5. congruence.
  - intros (Hun & e & Hpe & Hw & Hn & ->). destruct (tree_out g M (m_R' _ _ _ Hg HM) Okm e 0 0 Hpe) as (p & us & Ho & Hr & Hm & Hy).
    assert (Hn' : length syms + length (postorder (Node p us)) < 50).
    { destruct (tree_ev g M (m_wf _ _ _ Hg HM) (m_fresh _ _ Hf HM) (m_R _ _ _ Hg HM) Okm V code op Hop (Node p us) 0 0 Hok Ho Hr) as (e' & G1 & _ & G3 & _).
      rewrite <- (means_fun g M Okm _ _ _ Hm G1) in G3. rewrite G3. exact Hn. }
    apply (EV Hun (Node p us) Ho Hr); auto. congruence.
Qed.
Print Assumptions C85_type_partial.

(** A calculator: the type of "2*(3+4)-5" is 9. *)
Definition file_num : str := lines [
  tx "export start E: (T) = ["; tx "<x: E> ""+"" <y: T> => (x),"; tx "<x: E> ""-"" <y: T> => (x),"; tx "<x: T> => (x)"; tx "]";
  tx "export T: (T) = ["; tx "<x: T> ""*"" <y: F> => (x),"; tx "<x: F> => (x)"; tx "]";
  tx "export F: (T) = ["; tx """("" <x: E> "")"" => (x),"; tx "<x: r""[1-9]+[0-9]*""> => (x)"; tx "]"].
Definition num (w : list N) : Z := fold_left (fun a c => a * 10 + (Z.of_N c - 48))%Z w 0%Z.
Definition digits := SReg (tx "[1-9]+[0-9]*").
Definition num_forms : list (list form) := [
  [Form true (tk "+") [] true; Form true (tk "-") [] true]; [Form true (tk "*") [] true];
  [Form false (tk "(") [PArg 0 (tk ")")] false; Form false digits [] false]].
Definition m_num : mix := {|
  mx_sorts := 1; mx_name := fun _ i => [nth i [69; 84; 70]%N 0%N]; mx_top := fun _ => 2; mx_left := fun _ _ => true; mx_forms := fun _ i => nth i num_forms [] |}.
Definition num_op (s i : nat) (f : form) (xs : list (arg Z)) : Z :=
  match xs with
  | [AVal a; AText _; AVal b] => if eqb (fm_first f) (tk "+") then (a + b)%Z else if eqb (fm_first f) (tk "-") then (a - b)%Z else (a * b)%Z
  | [AText _; AVal a; AText _] => a
  | [AText w] => num w
  | _ => 0%Z
  end.
Definition num_code (p : N) (ss : list (symbol Z)) : Z :=
  match p, ss with
  | 1%N, [SymNon _ a; _; SymNon _ b] => (a + b)%Z
  | 2%N, [SymNon _ a; _; SymNon _ b] => (a - b)%Z
  | 4%N, [SymNon _ a; _; SymNon _ b] => (a * b)%Z
  | 6%N, [_; SymNon _ a; _] => a
  | 7%N, [SymTok (TTok _ (Some (TLit w))) _] => num w
  | _, [SymNon _ a] => a
  | _, _ => 0%Z
  end.
Definition num_chars : list (N * N) := map (fun c => (c, c)) (tx "0123456789+-*() ").
Definition num_list : list (nat * nat * form) := flat_map (fun i => map (fun f => (0, i, f)) (nth i num_forms [])) (seq 0 3).
Lemma num_list_all s i f : is_form m_num s i f <-> In (s, i, f) num_list.
Proof.
  split.
  - intros (Hs & Hi & Hf). cbn [m_num mx_sorts mx_top mx_forms] in *. assert (s = 0) as -> by lia. destruct i as [|[|[|i]]]; [..|lia]; cbn in Hf; repeat (destruct Hf as [<-|Hf]; [vm_compute; tauto|]); destruct Hf.
  - intros H. vm_compute in H. repeat (destruct H as [H|H]; [injection H as <- <- <-; split; [vm_compute; lia|split; [vm_compute; lia|vm_compute; tauto]]|]). destruct H.
Qed.
Local Ltac each H := apply num_list_all in H; vm_compute in H; repeat (destruct H as [H|H]; [try (injection H; clear H; intros; subst)|]); [..|destruct H].
Definition num_rules : list (str * list sym) :=
  [(tx "E", [nm "E"; tk "+"; nm "T"]); (tx "E", [nm "E"; tk "-"; nm "T"]); (tx "E", [nm "T"]); (tx "T", [nm "T"; tk "*"; nm "F"]); (tx "T", [nm "F"]);
   (tx "F", [tk "("; nm "E"; tk ")"]); (tx "F", [digits])].
Lemma num_mix ast : ast_rules ast = num_rules -> (exists st, find ap_start ast = Some st /\ ap_name st = tx "E") -> mixfix m_num ast.
Proof.
  intros Er Hst. unfold mixfix. rewrite Er. clear Er. split; [|split; [|split; [exact Hst|]]].
  - intros A b. split.
    + assert (HP : forall i, i < 2 -> mrule m_num (mx_name m_num 0 i) [SNon (mx_name m_num 0 (S i))]) by (intros; apply mr_pass; cbn; auto).
      assert (HF : forall i f, In (0, i, f) num_list -> mrule m_num (mx_name m_num 0 i) (map (slot_sym m_num) (form_slots m_num 0 i f))) by (intros i f Hf; apply mr_form, num_list_all, Hf).
      intros H. vm_compute in H. destruct H as [H|[H|[H|[H|[H|[H|[H|[]]]]]]]]; injection H as <- <-.
      * apply (HF 0 (Form true (tk "+") [] true)). vm_compute. tauto.
      * apply (HF 0 (Form true (tk "-") [] true)). vm_compute. tauto.
      * apply (HP 0). lia.
      * apply (HF 1 (Form true (tk "*") [] true)). vm_compute. tauto.
      * apply (HP 1). lia.
      * apply (HF 2 (Form false (tk "(") [PArg 0 (tk ")")] false)). vm_compute. tauto.
      * apply (HF 2 (Form false digits [] false)). vm_compute. tauto.
    + intros H. destruct H as [s i H1 H2|s i f H].
      * cbn in H1, H2. assert (s = 0) as -> by lia. destruct i as [|[|i]]; [vm_compute; tauto..|lia].
      * each H; vm_compute; tauto.
  - vm_compute. repeat (constructor; [simpl; intuition discriminate|]). constructor.
  - constructor.
    + vm_compute. lia.
    + intros s i s' i' Hs Hi Hs' Hi' H. cbn in Hs, Hi, Hs', Hi'. split; [lia|]. destruct i as [|[|[|i]]], i' as [|[|[|i']]]; try lia; discriminate H.
    + intros s Hs. discriminate.
    + intros s i f H x Hx. each H; vm_compute in Hx; repeat (destruct Hx as [<-|Hx]; [first [intros m; discriminate|vm_compute; lia]|]); destruct Hx.
    + intros s i j f f' H H' E1 E2. each H; each H'; first [discriminate E1|discriminate E2|auto].
    + intros s i f s' j f' t H E1 H' Ht. each H; try discriminate E1; each H'; vm_compute in Ht;
        repeat (destruct Ht as [Ht|Ht]; [first [discriminate Ht|injection Ht; intros; subst; discriminate]|]); destruct Ht.
Qed.
Local Ltac args_of HX HA := repeat match goal with
  | H : Forall2 arg_for (_ :: _) _ |- _ => inversion H; clear H; subst | H : Forall2 arg_for [] _ |- _ => inversion H; clear H; subst
  | H : Forall2 arg_of _ (_ :: _) |- _ => inversion H; clear H; subst | H : Forall2 arg_of _ [] |- _ => inversion H; clear H; subst
  | H : arg_for _ ?a |- _ => destruct a; try contradiction; clear H | H : arg_of _ _ |- _ => inversion H; clear H; subst | H : text_of _ _ |- _ => inversion H; clear H; subst end.
Example C85_nonvacuous :
  exists ast g l c hs, file_says file_num ast /\ mixfix m_num ast /\ grammar_from_ast ast = Ok g /\ lalr_new lisp_regex ehash g = Ok l /\
  quotes_ok g /\ codes_ok ast /\ kinds_distinct g /\ (forall s, named ast (IStr s) -> unq 39 s = Some s) /\
  Forall2 (fun x h => sym_hir lisp_regex x = Some h) (lex_syms g) hs /\ split_refines hs /\ Forall productive hs /\
  fits 200 (l_lexer l) /\ own_codes num_chars /\ well_typed num_code (fun _ _ => true) (fun _ => true) ast /\ interprets Z g m_num num_code num_op /\
  lex_ctx_new (l_lexer l) = Ok c /\
  ts_pipeline 200 num_chars (tables_of c) (the_tables g (l_tables l)) (EmitProduction Z 200 ast num_code (fun _ _ => true) (fun _ => true)) (tx "2*(3 + 44)-5") =
    Some (PStack [SymNon (tx "E") 89%Z]).
Proof.
  assert (Ea : exists ast, parse_grammar file_num = Ok ast /\ ast_rules ast = num_rules /\ (exists st, find ap_start ast = Some st /\ ap_name st = tx "E")).
  { let v := eval vm_compute in (parse_grammar file_num) in match v with Ok ?a => exists a end. split; [vm_compute; reflexivity|]. split; [vm_compute; reflexivity|]. eexists. split; vm_compute; reflexivity. }
  destruct Ea as (ast & Ea & Er & Hst). assert (Hs : file_says file_num ast) by (apply (C51_reading file_num), Ea). pose proof (num_mix ast Er Hst) as HM. clear Er Hst.
  destruct (grammar_from_ast ast) as [g| |] eqn:Eg; [|vm_compute in Ea; injection Ea as <-; vm_compute in Eg; discriminate Eg..].
  vm_compute in Ea. injection Ea as <-.
  destruct (lalr_new lisp_regex ehash g) as [l| |] eqn:El; [|vm_compute in Eg; injection Eg as <-; vm_compute in El; discriminate El..].
  destruct (lex_ctx_new (l_lexer l)) as [c| |] eqn:EC;
    [|vm_compute in Eg; injection Eg as <-; vm_compute in El; injection El as <-; vm_compute in EC; discriminate EC..].
  destruct (grammar_tokens lisp_regex g) as [tokens| |] eqn:Et; [|vm_compute in Eg; injection Eg as <-; vm_compute in Et; discriminate Et..].
  eexists. exists g, l, c, (map snd tokens). split; [exact Hs|]. split; [exact HM|]. split; [exact Eg|]. split; auto. clear Hs HM.
  split; [apply quotes_b_ok; vm_compute in Eg; injection Eg as <-; vm_compute; reflexivity|]. split; [apply codes_b_ok; vm_compute; reflexivity|].
  split; [apply kinds_b_ok; vm_compute in Eg; injection Eg as <-; vm_compute; reflexivity|].
  split.
  { intros s (p & b & m & Hp & Hb & Hx).
    repeat (destruct Hp as [<-|Hp];
      [repeat (destruct Hb as [<-|Hb]; [repeat (destruct Hx as [Hx|Hx]; [discriminate Hx|]); destruct Hx|]); destruct Hb|]). destruct Hp. }
  vm_compute in Eg. injection Eg as <-. vm_compute in Et. injection Et as <-. split; [repeat constructor|]. split; [apply split_b_ok; vm_compute; reflexivity|].
  split; [repeat (constructor; [apply productive_hb_ok; vm_compute; reflexivity|]); constructor|].
  vm_compute in El. injection El as <-. split.
  { split; [apply Nat.leb_le; reflexivity|]. split; [apply Nat.leb_le; vm_compute; reflexivity|]. intros e He. cbn [l_lexer lx_dfa d_edges] in He.
    repeat (destruct He as [<-|He]; [cbn [fst de_label]; lia|]). destruct He. }
  split; [intros ch v; unfold num_chars; intros H; apply map_get_In, in_map_iff in H as (x & E & _); congruence|].
  split; [intros k name b popped _ _; reflexivity|]. split.
  { intros p pr Hp0 Hp. cbn [g_prods] in Hp. split.
    - intros A B v Hs. destruct p as [|[|[|[|[|[|[|[|p]]]]]]]]; cbn [nth_error] in Hp; try congruence; try (injection Hp as <-; discriminate Hs); try (injection Hp as <-; reflexivity). destruct p; discriminate Hp.
    - intros s i f ss xs Hf Hn Hsy HX HA.
      destruct p as [|[|[|[|[|[|[|[|p]]]]]]]]; cbn [nth_error] in Hp; try congruence; try (destruct p; discriminate Hp); injection Hp as <-; each Hf; try discriminate Hsy; try discriminate Hn; clear Hn Hsy;
        cbn [form_slots fm_l fm_r fm_first fm_more flat_map piece_slots app] in HA; args_of HX HA; reflexivity. }
  vm_compute in EC. injection EC as <-. split; [reflexivity|]. vm_compute. reflexivity.
Qed.
