(** Property C81: how building a parser ends. *)
From Coq Require Import String.
From Verif Require Import Base Text Regex Nfa NfaProofs Dfa Lex LexProofs Grammar GrammarSpec GrammarProofs First FirstProofs Item ItemSpec ItemProofs ItemPlain
  GrammarCheck OutcomeProofs Table MergeProofs TableSpec TableProofs TableFacts LexGrammar LexGrammarProofs Lalr EndProofs GrammarFile GrammarFileSpec Witness
  Lisp PropsRegex PropsLex PropsItem PropsTable PropsGrammarFile PropsGenerate.
Local Open Scope list_scope.

(** ** Specification: what can be wrong with a grammar *)

(** A rule that can be used mentions a name without rules. *)
Definition undefined_name (g : grammar) : Prop :=
  exists p pr B, reachable g p /\ nth_error (g_prods g) p = Some pr /\ In (SNon B) (p_syms pr) /\ ~ has_rule g B.
(** In a rule that can be used, what follows a name leads to a left-recursive name. *)
Definition left_follows (g : grammar) : Prop :=
  exists p pr d B x A b, reachable g p /\ nth_error (g_prods g) p = Some pr /\ nth_error (p_syms pr) d = Some (SNon B) /\
    nth_error (p_syms pr) (S d) = Some x /\ derives g [x] (SNon A :: b) /\ left_recursive g A.
(** No two items of an LALR state want an action on the same token. *)
Definition settled (g : grammar) : Prop := forall I, lr_state g (F_std g) I -> forall p d p' d' k,
  wants g (F_std g) (lalr_of g (F_std g) I) p d k -> wants g (F_std g) (lalr_of g (F_std g) I) p' d' k -> (p, d) = (p', d').

(** ** Tables *)

(** How making the tables of a grammar without epsilon ends, when no two cores share a hash. *)
Theorem C81_tables_end :
  forall ast g, grammar_from_ast ast = Ok g -> eps_free g -> forall hash, (forall lr0, items g = Ok lr0 -> collision_free hash lr0) ->
  match make_tables hash g with
  | Ok _ => ~ undefined_name g /\ ~ left_follows g /\ settled g
  | Panic PConflict => ~ undefined_name g /\ ~ left_follows g /\ ~ settled g
  | Panic PUnwrapNone => undefined_name g
  | Diverge => left_follows g
  | Panic _ => False
  end.
Proof.
  intros ast g Hg He hash Hc. destruct (grammar_from_ast_ok _ _ Hg) as (st & _ & W & _).
  unfold make_tables. destruct (items g) as [lr0|pn|] eqn:El; cbn [bind].
  - assert (HU : ~ undefined_name g).
    { intros (p & pr & B & Hr & Hp & Hin & Hn). apply In_nth_error in Hin as [d Hd].
      apply Hn, (proj1 (C24_returns_iff _ _ Hg He) (ex_intro _ lr0 El) _ _ _ _ Hr Hp Hd). }
    assert (HL : ~ left_follows g).
    { intros (p & pr & d & B & x & A & b & Hr & Hp & Hd & Hx & Hb & HA).
      destruct (proj1 (C24_returns_iff _ _ Hg He) (ex_intro _ lr0 El) _ _ _ _ Hr Hp Hd) as [_ H]. apply (H x Hx A b Hb), HA. }
    destruct (merge_cores_spec hash lr0 (lr_wf g _ W lr0 El)) as [(lalr & m & E & Hm & _)|[_ (i & j & s & t & H1 & H2 & H3 & H4)]].
    2:{ exfalso. apply H4. apply (Hc lr0 eq_refl s t); eauto using nth_error_In. }
    rewrite E. cbn [bind]. pose proof (one_each_std g _ W He lr0 _ m El Hm) as Ho.
    destruct (tables_spec g _ W lr0 El lalr m Hm) as [(act & got & E' & H1 & _)|[E' H1]]; rewrite E'; cbn [bind].
    + split; auto. split; auto. exact (proj1 Ho H1).
    + split; auto. split; auto. intros H. apply H1, Ho, H.
  - destruct (items_panic_undefined g _ W He pn El) as [-> H]. exact H.
  - destruct (items_div_left g _ W He El) as (p & pr & d & B & x & A & H1 & H2 & H3 & H4 & H5 & H6).
    apply lms_derives in H5 as [b Hb]. exists p, pr, d, B, x, A, b. auto 10.
Qed.
Print Assumptions C81_tables_end.

(** So the outcome is known from the grammar, but for grammars wrong in both of the first two ways. *)
Theorem C81_tables_outcome :
  forall ast g, grammar_from_ast ast = Ok g -> eps_free g -> forall hash, (forall lr0, items g = Ok lr0 -> collision_free hash lr0) ->
  (undefined_name g -> ~ left_follows g -> make_tables hash g = Panic PUnwrapNone) /\
  (left_follows g -> ~ undefined_name g -> make_tables hash g = Diverge) /\
  (undefined_name g -> left_follows g -> make_tables hash g = Panic PUnwrapNone \/ make_tables hash g = Diverge) /\
  (~ undefined_name g -> ~ left_follows g -> ~ settled g -> make_tables hash g = Panic PConflict) /\
  (~ undefined_name g -> ~ left_follows g -> settled g -> exists t, make_tables hash g = Ok t).
Proof.
  intros ast g Hg He hash Hc. pose proof (C81_tables_end _ _ Hg He hash Hc) as H.
  destruct (make_tables hash g) as [t|[]|]; try contradiction; repeat split; intros; try tauto; eauto.
Qed.
Print Assumptions C81_tables_outcome.

(** For those two rules suffice that differ in the order of their symbols: S -> C E U and S -> U C E, with
    C -> "c" and E -> E "e" | "e". *)
Definition both (l : list N) : list aprod := [PS 83 [map V l]; P 67 [[T 99]]; P 69 [[V 69; T 101]; [T 101]]].
Theorem C81_tables_order_refuted :
  exists g g', grammar_from_ast (both [67; 69; 85]%N) = Ok g /\ grammar_from_ast (both [85; 67; 69]%N) = Ok g' /\
    eps_free g /\ eps_free g' /\ undefined_name g /\ left_follows g /\ undefined_name g' /\ left_follows g' /\
    make_tables ehash g = Diverge /\ make_tables ehash g' = Panic PUnwrapNone.
Proof.
  destruct (grammar_from_ast (both [67; 69; 85]%N)) as [g| |] eqn:Eg; [|vm_compute in Eg; discriminate Eg..].
  destruct (grammar_from_ast (both [85; 67; 69]%N)) as [g'| |] eqn:Eg'; [|vm_compute in Eg'; discriminate Eg'..].
  exists g, g'. split; auto. split; auto.
  assert (He : eps_free g) by (vm_compute in Eg; injection Eg as <-; apply eps_free_b_ok; reflexivity).
  assert (He' : eps_free g') by (vm_compute in Eg'; injection Eg' as <-; apply eps_free_b_ok; reflexivity).
  assert (E1 : make_tables ehash g = Diverge) by (vm_compute in Eg; injection Eg as <-; vm_compute; reflexivity).
  assert (E2 : make_tables ehash g' = Panic PUnwrapNone) by (vm_compute in Eg'; injection Eg' as <-; vm_compute; reflexivity).
  pose proof (C81_tables_end _ _ Eg He ehash (fun lr0 _ => ehash_free lr0)) as H1. rewrite E1 in H1.
  pose proof (C81_tables_end _ _ Eg' He' ehash (fun lr0 _ => ehash_free lr0)) as H2. rewrite E2 in H2.
  split; auto. split; auto. split; [|split; [exact H1|split; [exact H2|split; [|auto]]]].
  - vm_compute in Eg. injection Eg as <-. clear. eexists 1, _, [85]%N. split; [|split; [reflexivity|split; [simpl; tauto|]]].
    + eapply (reach_next _ 0 _ 1); [constructor|reflexivity| |reflexivity]. left; reflexivity.
    + intros (q & Hq & E). simpl in Hq. repeat (destruct Hq as [<-|Hq]; [discriminate E|]). destruct Hq.
  - vm_compute in Eg'. injection Eg' as <-. clear. eexists 1, _, 1, [67]%N, _, [69]%N, [].
    split; [|split; [reflexivity|split; [reflexivity|split; [reflexivity|split; [apply derives_refl|]]]]].
    + eapply (reach_next _ 0 _ 1); [constructor|reflexivity| |reflexivity]. left; reflexivity.
    + eexists _, [SStr [101]%N]. split; [|apply derives_refl].
      match goal with |- derives1 ?g _ _ => apply (derives1_intro g [] [69]%N [SNon [69]; SStr [101]]%N []) end.
      eexists. split; [right; right; right; left; reflexivity|split; reflexivity].
Qed.
Print Assumptions C81_tables_order_refuted.

(** When two different cores have the same hash (and the collection exists), it panics. *)
Theorem C81_tables_collision :
  forall ast g, grammar_from_ast ast = Ok g -> forall hash lr0, items g = Ok lr0 ->
  (exists s t, In s lr0 /\ In t lr0 /\ hash (core s) = hash (core t) /\ core s <> core t) ->
  exists pn, make_tables hash g = Panic pn.
Proof.
  intros ast g Hg hash lr0 El (s & t & Hs & Ht & Eh & Hn). destruct (grammar_from_ast_ok _ _ Hg) as (st & _ & W & _).
  unfold make_tables. rewrite El. cbn [bind].
  destruct (merge_cores_spec hash lr0 (lr_wf g _ W lr0 El)) as [(lalr & m & E & Hm & Hcf)|[[pn ->] _]]; [|cbn [bind]; eauto].
  exfalso. apply Hn. exact (Hcf s t Hs Ht Eh).
Qed.
Print Assumptions C81_tables_collision.

(** ** Lexer *)

(** A regex of the grammar that regex-syntax rejects; one with a part that is not supported; one with an empty part. *)
Definition unreadable (parse_regex : str -> option hir) (g : grammar) : Prop := exists r, In (SReg r) (g_tokens g) /\ parse_regex r = None.
Definition has_unsupported (parse_regex : str -> option hir) (g : grammar) : Prop :=
  exists r h x, In (SReg r) (g_tokens g) /\ parse_regex r = Some h /\ subterm x h /\ unsupported x.
Definition has_empty (parse_regex : str -> option hir) (g : grammar) : Prop :=
  exists r h, In (SReg r) (g_tokens g) /\ parse_regex r = Some h /\ subterm HEmpty h /\ ~ grouped_empty h.

Lemma grammar_tokens_end parse_regex l : forall i,
  match grammar_tokens_from parse_regex i l with
  | Ok _ => forall r, In (SReg r) l -> parse_regex r <> None
  | Panic PUnwrapNone => exists r, In (SReg r) l /\ parse_regex r = None
  | _ => False
  end.
Proof.
  induction l as [|x l IH]; intros i; cbn [grammar_tokens_from]; [intros r []|]. specialize (IH (S i)).
  assert (G : match grammar_tokens_from parse_regex (S i) l with
    | Ok _ => forall r, In (SReg r) l -> parse_regex r <> None | Panic PUnwrapNone => exists r, In (SReg r) (x :: l) /\ parse_regex r = None | _ => False end).
  { destruct (grammar_tokens_from parse_regex (S i) l) as [ts|[]|]; auto. destruct IH as (r & Hr & E). exists r. simpl. auto. }
  clear IH. destruct x as [s|s|s| |]; cbn [token_def_with_regex bind].
  3: destruct (parse_regex s) as [h|] eqn:Es; cbn [bind]; [|exists s; simpl; auto].
  all: destruct (grammar_tokens_from parse_regex (S i) l) as [ts|[]|]; cbn [bind]; auto.
  all: intros r [E|Hr]; [try discriminate E; try (injection E as <-; congruence)|auto].
Qed.

Lemma grouped_supported h : grouped_empty h -> forall x, subterm x h -> ~ unsupported x.
Proof.
  induction 1 as [|h Hg IH]; intros x Hx Hu; inversion Hx; subst; try exact Hu.
  eapply IH; eauto.
Qed.
Lemma from_tokens_panic ts pn : from_tokens ts = Panic pn -> exists td h, In (td, h) ts /\ from_regex h = Panic pn.
Proof.
  intros H. destruct (mapM (fun t : token_def * hir => let* n := from_regex (snd t) in Ok (fst t, n)) ts) as [wn|q|] eqn:Ew.
  - exfalso. destruct (proj2 (from_tokens_total ts)) as [L EL]; [|congruence].
    intros td h Hin. destruct (mapM_ok_inv _ _ _ Ew _ Hin) as [b Hb]. cbn [snd] in Hb. apply bind_ok in Hb as (n & En & _). eauto.
  - unfold from_tokens, lex_nfa in H. rewrite Ew in H. cbn [bind] in H. injection H as ->.
    apply mapM_panic in Ew as ([td h] & Hin & E). cbn [snd] in E. apply bind_panic in E as [E|(n & _ & E)]; [eauto|discriminate].
  - unfold from_tokens, lex_nfa in H. rewrite Ew in H. discriminate.
Qed.
Lemma from_tokens_div ts : from_tokens ts <> Diverge.
Proof.
  intros H. destruct (mapM (fun t : token_def * hir => let* n := from_regex (snd t) in Ok (fst t, n)) ts) as [wn|q|] eqn:Ew.
  - destruct (proj2 (from_tokens_total ts)) as [L EL]; [|congruence].
    intros td h Hin. destruct (mapM_ok_inv _ _ _ Ew _ Hin) as [b Hb]. cbn [snd] in Hb. apply bind_ok in Hb as (n & En & _). eauto.
  - unfold from_tokens, lex_nfa in H. rewrite Ew in H. discriminate.
  - apply mapM_div in Ew as ([td h] & _ & E). cbn [snd] in E. apply bind_div in E as [E|(n & _ & E)]; [|discriminate].
    pose proof (C02_from_regex_failures h) as HF. rewrite E in HF. exact HF.
Qed.

(** How making the lexer ends: all the regexes are read before the first is compiled. *)
Theorem C81_lexer_end :
  forall parse_regex g, match from_grammar parse_regex g with
  | Ok _ => ~ unreadable parse_regex g /\ ~ has_unsupported parse_regex g /\ ~ has_empty parse_regex g
  | Panic PUnwrapNone => unreadable parse_regex g \/ (~ unreadable parse_regex g /\ has_empty parse_regex g)
  | Panic PTodo => ~ unreadable parse_regex g /\ has_unsupported parse_regex g
  | Panic _ => False
  | Diverge => False
  end.
Proof.
  intros parse_regex g. unfold from_grammar. pose proof (grammar_tokens_end parse_regex (g_tokens g) 0) as H.
  destruct (grammar_tokens parse_regex g) as [ts|pn|] eqn:Et; unfold grammar_tokens in Et; rewrite Et in H; cbn [bind].
  2: destruct pn; try contradiction; left; exact H.
  2: contradiction.
  assert (HR : ~ unreadable parse_regex g) by (intros (r & Hr & E); exact (H r Hr E)).
  destruct (from_tokens ts) as [L|pn|] eqn:EL.
  - assert (HL : exists L, from_grammar parse_regex g = Ok L) by (exists L; unfold from_grammar, grammar_tokens; rewrite Et; exact EL).
    rewrite lexer_iff in HL. split; auto.
    assert (G : forall r h, In (SReg r) (g_tokens g) -> parse_regex r = Some h -> exists n, from_regex h = Ok n).
    { intros r h Hr E. destruct (HL r Hr) as (h' & E' & Hcn). rewrite E in E'. injection E' as <-. apply C02_from_regex_accepts_iff, Hcn. }
    split.
    + intros (r & h & x & Hr & E & Hx & Hu). destruct (proj1 (C02_from_regex_accepts_iff h) (G r h Hr E)) as [C|C]; [destruct (C x Hx); auto|].
      exact (grouped_supported h C x Hx Hu).
    + intros (r & h & Hr & E & Hx & Hn). destruct (proj1 (C02_from_regex_accepts_iff h) (G r h Hr E)) as [C|C]; [destruct (C HEmpty Hx); auto|auto].
  - apply from_tokens_panic in EL as (td & h & Hin & Eh).
    apply (grammar_tokens_spec parse_regex g ts Et) in Hin as (k & x & n & Hk & _ & _ & Hx).
    destruct x as [s|s|s| |]; cbn in Hx; try discriminate.
    + injection Hx as <-. destruct (lit_compiles s) as [m Em]. congruence.
    + destruct (parse_regex s) as [h'|] eqn:Es; [|discriminate]. injection Hx as ->. apply nth_error_In in Hk.
      pose proof (C02_from_regex_failures h) as HF. rewrite Eh in HF. destruct pn; try contradiction.
      * destruct HF as (x & Hx & Hu). split; auto. exists s, h, x. auto.
      * right. split; auto. exists s, h. tauto.
  - apply from_tokens_div in EL. contradiction.
Qed.
Print Assumptions C81_lexer_end.

(** ** The parser of a grammar file *)

(** Reading the file (lib.rs:10-17), the grammar of its rules (mod.rs:57-113), the parser (lalr.rs:31-43). *)
Definition build (parse_regex : str -> option hir) (hash : list item -> N) (text : str) : res lalr :=
  let* ast := parse_grammar text in
  let* g := grammar_from_ast ast in
  lalr_new parse_regex hash g.
(** The grammar a text gives. *)
Definition gives (text : str) (g : grammar) : Prop := exists ast, file_says text ast /\ grammar_from_ast ast = Ok g.
(** Its regexes are accepted. *)
Definition regexes_ok (parse_regex : str -> option hir) (g : grammar) : Prop :=
  ~ unreadable parse_regex g /\ ~ has_unsupported parse_regex g /\ ~ has_empty parse_regex g.

Theorem C81_file_end :
  forall parse_regex hash text,
  (forall g lr0, gives text g -> items g = Ok lr0 -> collision_free hash lr0) ->
  match build parse_regex hash text with
  | Ok l => gives text (l_grammar l) /\ regexes_ok parse_regex (l_grammar l) /\
      ~ undefined_name (l_grammar l) /\ ~ left_follows (l_grammar l) /\ settled (l_grammar l)
  | Panic PNoStart => exists ast, file_says text ast /\ forall p, In p ast -> ap_start p = false
  | Panic PUnwrapNone => (forall ast, ~ file_says text ast) \/
      exists g, gives text g /\ (unreadable parse_regex g \/ has_empty parse_regex g \/ (regexes_ok parse_regex g /\ undefined_name g))
  | Panic PTodo => exists g, gives text g /\ ~ unreadable parse_regex g /\ has_unsupported parse_regex g
  | Panic PConflict => exists g, gives text g /\ regexes_ok parse_regex g /\ ~ undefined_name g /\ ~ left_follows g /\ ~ settled g
  | Panic _ => False
  | Diverge => exists g, gives text g /\ regexes_ok parse_regex g /\ left_follows g
  end.
Proof.
  intros parse_regex hash text Hc. unfold build. destruct (C51_reading text) as [HR HP].
  destruct (parse_grammar text) as [ast|pn|] eqn:Ea.
  2,3: assert (Hno : forall ast, ~ file_says text ast) by (intros ast H; apply HR in H; discriminate);
       pose proof (proj2 HP Hno) as E; inversion E; subst; cbn [bind]; left; exact Hno.
  cbn [bind]. pose proof (C52_file_ast _ _ Ea) as Hf. pose proof (proj1 (HR ast) eq_refl) as Hs.
  destruct (grammar_from_ast ast) as [g|pn|] eqn:Eg.
  3: unfold grammar_from_ast in Eg; destruct (find ap_start ast); [destruct (fold_left add_prod ast _); discriminate|discriminate].
  2:{ unfold grammar_from_ast in Eg. destruct (find ap_start ast) as [st|] eqn:Ef; [destruct (fold_left add_prod ast _); discriminate|].
      injection Eg as <-. cbn [bind]. exists ast. split; auto. apply (find_none _ _ Ef). }
  cbn [bind]. assert (Hg : gives text g) by (exists ast; auto).
  destruct (file_plain _ _ Hf Eg) as [[He _] _]. unfold lalr_new. pose proof (C81_lexer_end parse_regex g) as HL.
  destruct (from_grammar parse_regex g) as [L|pn|]; cbn [bind]; [|destruct pn; try contradiction|contradiction].
  - pose proof (C81_tables_end _ _ Eg He hash (fun lr0 => Hc g lr0 Hg)) as HT.
    destruct (make_tables hash g) as [t|[]|]; cbn [bind]; try contradiction.
    + cbn [l_grammar]. exact (conj Hg (conj HL HT)).
    + right. exists g. split; [exact Hg|]. right. right. exact (conj HL HT).
    + exists g. exact (conj Hg (conj HL HT)).
    + exists g. exact (conj Hg (conj HL HT)).
  - exists g. auto.
  - right. exists g. split; auto. destruct HL as [HL|[_ HL]]; auto.
Qed.
Print Assumptions C81_file_end.

(** Every outcome arises. *)
Definition reg (s : str) : option hir :=
  if eqb s (tx "a") then Some (HLit 97%N) else if eqb s (tx "^") then Some HAnchor else if eqb s (tx "a|") then Some (HAlt [HLit 97%N; HEmpty]) else None.
Definition file_ok : str := lines [tx "export start S: (T) = ["; tx "<x: r""a""> => (x)"; tx "]"].
Definition file_bad : str := lines [tx "export start S: (T) = ["; tx " => (x)"; tx "]"].
Definition file_nostart : str := lines [tx "export S: (T) = ["; tx """a"" => (x)"; tx "]"].
Definition file_regex : str := lines [tx "export start S: (T) = ["; tx "r""("" => (x)"; tx "]"].
Definition file_anchor : str := lines [tx "export start S: (T) = ["; tx "r""^"" => (x)"; tx "]"].
Definition file_empty : str := lines [tx "export start S: (T) = ["; tx "r""a|"" => (x)"; tx "]"].
Definition file_undefined : str := lines [tx "export start S: (T) = ["; tx "<x: U> => (x)"; tx "]"].
Definition file_left : str := lines [tx "export start S: (T) = ["; tx "<x: A> <y: B> => (x)"; tx "]"; tx "export A: (T) = ["; tx """a"" => (x)"; tx "]"; tx "export B: (T) = ["; tx "<x: B> ""b"" => (x),"; tx """b"" => (x)"; tx "]"].
Definition file_conflict : str := lines [tx "export start S: (T) = ["; tx "<x: A> ""b"" => (x),"; tx "<x: B> ""b"" => (x)"; tx "]"; tx "export A: (T) = ["; tx """a"" => (x)"; tx "]"; tx "export B: (T) = ["; tx """a"" => (x)"; tx "]"].
Example C81_nonvacuous :
  (exists l, build reg ehash file_ok = Ok l) /\
  build reg ehash file_bad = Panic PUnwrapNone /\ build reg ehash file_nostart = Panic PNoStart /\
  build reg ehash file_regex = Panic PUnwrapNone /\ build reg ehash file_anchor = Panic PTodo /\ build reg ehash file_empty = Panic PUnwrapNone /\
  build reg ehash file_undefined = Panic PUnwrapNone /\ build reg ehash file_left = Diverge /\ build reg ehash file_conflict = Panic PConflict.
Proof.
  split.
  { destruct (build reg ehash file_ok) as [l| |] eqn:E; [eauto|vm_compute in E; discriminate E..]. }
  repeat split; vm_compute; reflexivity.
Qed.
