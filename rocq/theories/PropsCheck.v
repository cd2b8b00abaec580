(** Property C93: a check of what is built from a grammar file that settles how all texts are parsed. *)
From Coq Require Import String.
From Verif Require Import Base Text Regex Nfa NfaProofs Dfa Lex LexSpec LexNfa LexProofs Grammar GrammarSpec GrammarProofs First Item ItemSpec ItemProofs ItemPlain
  GrammarCheck Table TableSpec MergeProofs TableProofs TableFacts LexGrammar LexGrammarProofs Parse ParseSpec ParseCheck TreeFacts Auto ParseProofs ParseTerm ParseCycle ParseComplete
  Report ReportSpec ReportProofs ReportExact Lalr EndSpec EndProofs Utf8Spec Utf8Proofs GrammarFile GrammarFileSpec Witness PrintSpec
  PropsLex PropsGrammar PropsTable PropsParse PropsReport PropsEnd PropsGrammarFile PropsWhole PropsOutcome PropsParseEnd PropsPrint CompleteProofs PropsComplete Lisp PropsLisp.
Local Open Scope list_scope.

(** ** The check *)

(** No literal has the text of a regex. *)
Definition no_clash_b (g : grammar) : bool :=
  forallb (fun x => match x with Grammar.SStr s => negb (existsb (eqb (SReg s)) (g_tokens g)) | _ => true end) (g_tokens g).
(** No empty class, range or choice inside. *)
Fixpoint hir_ok_b (h : hir) : bool :=
  match h with
  | HClass rs => negb (match rs with [] => true | _ => false end) && forallb (fun r => N.leb (fst r) (snd r)) rs
  | HRep _ h | HGroup h => hir_ok_b h
  | HConcat hs => forallb hir_ok_b hs
  | HAlt hs => negb (match hs with [] => true | _ => false end) && forallb hir_ok_b hs
  | _ => true
  end.
Fixpoint hirs (parse : str -> option hir) (l : list sym) : option (list hir) :=
  match l with
  | [] => Some []
  | x :: l => match sym_hir parse x, hirs parse l with Some h, Some hs => Some (h :: hs) | _, _ => None end
  end.
(** The texts of the tokens, the ranges in the regexes (C04) and the tables (C28) are as they should be. *)
Definition sound_b (parse : str -> option hir) (l : lalr) : bool :=
  no_clash_b (l_grammar l) &&
  match hirs parse (lex_syms (l_grammar l)) with Some hs => split_b hs && forallb hir_ok_b hs | None => false end &&
  complete_b (l_grammar l) (l_tables l).

Lemma no_clash_b_ok g : no_clash_b g = true -> no_clash g.
Proof.
  unfold no_clash_b. rewrite forallb_forall. intros H s [H1 H2]. specialize (H _ H1). cbn in H. apply negb_true_iff in H.
  rewrite <- not_true_iff_false in H. apply H, existsb_exists. exists (SReg s). split; [exact H2|apply eqb_refl].
Qed.
Lemma hirs_ok parse l : forall hs, hirs parse l = Some hs -> Forall2 (fun x h => sym_hir parse x = Some h) l hs.
Proof.
  induction l as [|x l IH]; intros hs H; cbn [hirs] in H; [injection H as <-; constructor|].
  destruct (sym_hir parse x) as [h|] eqn:E; [|discriminate]. destruct (hirs parse l) as [hs'|]; [|discriminate]. injection H as <-. constructor; auto.
Qed.
Lemma hir_ok_productive h : hir_ok_b h = true -> productive h.
Proof.
  intros H x Hx. revert H. induction Hx as [h|x k h _ IH|x h _ IH|x h hs Hin _ IH|x h hs Hin _ IH]; cbn [hir_ok_b]; intros H; try (apply IH; exact H).
  - destruct h as [|c|rs| | |k h|h|hs|hs]; cbn [hir_ok_b] in H; auto.
    + apply andb_true_iff in H as [H1 H2]. split; [destruct rs; discriminate || congruence|].
      rewrite forallb_forall in H2. intros lo hi Hr. apply N.leb_le, (H2 _ Hr).
    + apply andb_true_iff in H as [H1 _]. destruct hs; discriminate || congruence.
  - apply IH. rewrite forallb_forall in H. auto.
  - apply IH. apply andb_true_iff in H as [_ H]. rewrite forallb_forall in H. auto.
Qed.

(** If the texts of the tokens are as they should be and no transition is missing, every text is split
    into the symbols of the grammar in exactly one way, and (unless a lexeme is cut inside a character,
    C14) is answered with the reductions of their only parse tree if they have one, and as a wrong text
    if not. *)
Theorem C93_settled :
  forall parse hash text l hs, build parse hash text = Ok l -> no_clash (l_grammar l) ->
  Forall2 (fun x h => sym_hir parse x = Some h) (lex_syms (l_grammar l)) hs -> split_refines hs -> Forall productive hs -> closed (l_grammar l) (l_tables l) ->
  exists ast st, file_says text ast /\ grammar_from_ast ast = Ok (l_grammar l) /\ find ap_start ast = Some st /\
  unambiguous (l_grammar l) (ap_name st) /\
  forall input, exists ts rest syms, Tokenize (begins parse (l_grammar l)) (is_sym parse (l_grammar l)) 0 input ts rest /\
    (forall ts' rest', Tokenize (begins parse (l_grammar l)) (is_sym parse (l_grammar l)) 0 input ts' rest' -> ts' = ts /\ rest' = rest) /\
    Forall2 (fun x s => nth_error (lex_syms (l_grammar l)) (snd (fst x)) = Some s) ts syms /\
    (~ sliced input (map drop_idx ts) -> lalr_parse l input = Panic PSlice) /\
    (ascii input -> sliced input (map drop_idx ts)) /\
    (sliced input (map drop_idx ts) ->
      (exists tr, tree_ok (l_grammar l) tr /\ root (l_grammar l) tr = Some (SNon (ap_name st)) /\ yield tr = syms /\ lalr_parse l input = Ok (postorder tr)) \/
      (~ derives (l_grammar l) [SNon (ap_name st)] syms /\ lalr_parse l input = Panic PInvalidToken)).
Proof.
  intros parse hash text l hs Hb Hn Eh Hsp Hpr Hcl.
  destruct (C82_text_end _ _ _ _ Hb) as (ast & st & lv & ac & Hsay & Hg & Hst & (_ & Hdet & Hex) & Hend).
  destruct (Hex hs Eh Hsp) as [Hac Hlv]. specialize (Hlv Hpr).
  pose proof Hb as Hb'. unfold build in Hb'. apply bind_ok in Hb' as (ast' & Ea & Hb'). apply bind_ok in Hb' as (g & Hg' & Hl).
  destruct (C51_reading text) as [HR _]. apply HR in Hsay as Ea'. rewrite Ea' in Ea. injection Ea as <-. rewrite Hg in Hg'. injection Hg' as <-.
  pose proof (C52_file_ast _ _ Ea') as Hf. destruct (file_plain _ _ Hf Hg) as [Hp Hfr].
  destruct (new_parts _ _ _ _ Hl) as (_ & _ & Ht).
  exists ast, st. split; auto. split; auto. split; auto. split.
  { intros w tr tr'. eapply (C33_unambiguous_partial _ _ _ Hg Hst Hp Hfr _ _ Ht Hcl). }
  intros input. destruct (C36_accepts_iff_partial parse hash ast (l_grammar l) st l hs Hf Hg Hst Hl Hn Eh Hsp Hpr input) as (ts & rest & syms & HT & HF & Hsl & Hacc & Hall).
  exists ts, rest, syms. split; auto. split.
  { intros ts' rest' HT'. eapply tokenize_det; [|exact HT'|exact HT].
    intros v i j [(x & Hx & Hvx) Hi] [(y & Hy & Hvy) Hj]. destruct (Nat.lt_trichotomy i j) as [H|[H|H]]; auto; exfalso; [exact (Hj i x H Hx Hvx)|exact (Hi j y H Hy Hvy)]. }
  split; auto. split; auto. split; [intros Ha; eapply ascii_sliced; eauto; eapply tokenize_layout; eauto|].
  intros Hsd.
  assert (HO : match lalr_parse l input with Ok _ => True | Panic pn => pn = PInvalidToken | Diverge => False end).
  { destruct (Hend input) as (ts2 & r2 & HT2 & Hor).
    assert (ts2 = ts) as ->.
    { assert (HT3 : Tokenize (begins parse (l_grammar l)) (is_sym parse (l_grammar l)) 0 input ts2 r2) by (revert HT2; apply tokenize_ext; auto).
      eapply tokenize_det; [|exact HT3|exact HT].
      intros v i j [(x & Hx & Hvx) Hi] [(y & Hy & Hvy) Hj]. destruct (Nat.lt_trichotomy i j) as [H|[H|H]]; auto; exfalso; [exact (Hj i x H Hx Hvx)|exact (Hi j y H Hy Hvy)]. }
    destruct Hor as [[Hns _]|(_ & syms' & w & _ & _ & _ & Ho)]; [contradiction|]. unfold outcome in Ho.
    destruct (lalr_parse l input) as [ps|[]|]; auto; try contradiction. destruct Ho as [Ho _]. contradiction. }
  destruct (lalr_parse l input) as [ps|pn|] eqn:E; [| |contradiction].
  - left. destruct (proj1 (Hacc ps) eq_refl) as (_ & tr & j & H1 & H2 & H3 & _ & ->). exists tr. auto.
  - subst pn. right. split; auto. intros Hd. assert (Htm : terminals syms).
    { clear -HF. induction HF as [|x y ts syms Hx _ IH]; constructor; auto. apply nth_error_In, filter_In in Hx as [_ Hx]. intros n ->. discriminate. }
    destruct (derives_tree _ _ _ Hd Htm) as (tr & H1 & H2 & H3). specialize (Hall Hcl Hsd tr H1 H2 H3). congruence.
Qed.
Print Assumptions C93_settled.

(** So it is if the check succeeds. *)
Theorem C93_checked :
  forall parse hash text l, build parse hash text = Ok l -> sound_b parse l = true ->
  exists ast st, file_says text ast /\ grammar_from_ast ast = Ok (l_grammar l) /\ find ap_start ast = Some st /\
  unambiguous (l_grammar l) (ap_name st) /\
  forall input, exists ts rest syms, Tokenize (begins parse (l_grammar l)) (is_sym parse (l_grammar l)) 0 input ts rest /\
    (forall ts' rest', Tokenize (begins parse (l_grammar l)) (is_sym parse (l_grammar l)) 0 input ts' rest' -> ts' = ts /\ rest' = rest) /\
    Forall2 (fun x s => nth_error (lex_syms (l_grammar l)) (snd (fst x)) = Some s) ts syms /\
    (~ sliced input (map drop_idx ts) -> lalr_parse l input = Panic PSlice) /\
    (ascii input -> sliced input (map drop_idx ts)) /\
    (sliced input (map drop_idx ts) ->
      (exists tr, tree_ok (l_grammar l) tr /\ root (l_grammar l) tr = Some (SNon (ap_name st)) /\ yield tr = syms /\ lalr_parse l input = Ok (postorder tr)) \/
      (~ derives (l_grammar l) [SNon (ap_name st)] syms /\ lalr_parse l input = Panic PInvalidToken)).
Proof.
  intros parse hash text l Hb Hs. unfold sound_b in Hs. apply andb_true_iff in Hs as [Hs Hc]. apply andb_true_iff in Hs as [Hn Hh].
  destruct (hirs parse (lex_syms (l_grammar l))) as [hs|] eqn:Eh; [|discriminate]. apply andb_true_iff in Hh as [Hsp Hok].
  apply (C93_settled parse hash text l hs Hb); [apply no_clash_b_ok, Hn|apply hirs_ok, Eh|apply split_b_ok, Hsp| |].
  - apply Forall_forall; intros h Hin; rewrite forallb_forall in Hok; apply hir_ok_productive; auto.
  - unfold build in Hb. apply bind_ok in Hb as (ast & Ea & Hb). apply bind_ok in Hb as (g & Hg & Hl).
    destruct (new_parts _ _ _ _ Hl) as (Eg & _ & _). rewrite <- Eg in *. destruct (file_plain _ _ (C52_file_ast _ _ Ea) Hg) as [Hp _].
    destruct (grammar_from_ast_ok _ _ Hg) as (s' & _ & W & _). apply (complete_b_iff _ _ _ W (proj2 Hp)), Hc.
Qed.
Print Assumptions C93_checked.

(** Every way of writing down every parse tree, with white space between the leaves, is parsed back to it. *)
Definition reads_back (parse : str -> option hir) (l : lalr) (start : str) : Prop :=
  forall tr leaves s, tree_ok (l_grammar l) tr -> root (l_grammar l) tr = Some (SNon start) -> yield tr = map fst leaves ->
  Forall (fun xu => own_text parse (l_grammar l) (fst xu) (snd xu)) leaves -> Printed leaves s -> ascii s ->
  lalr_parse l s = Ok (postorder tr).

(** If every symbol derives something, and every terminal has a text of its own, a missing
    transition costs a text: one that spells out a parse tree and is not parsed back to it. *)
Theorem C93_gap_costs :
  forall parse hash text l ast st hs, build parse hash text = Ok l ->
  file_says text ast -> grammar_from_ast ast = Ok (l_grammar l) -> find ap_start ast = Some st -> all_productive (l_grammar l) ->
  no_clash (l_grammar l) -> Forall2 (fun x h => sym_hir parse x = Some h) (lex_syms (l_grammar l)) hs -> split_refines hs -> Forall productive hs ->
  no_white_texts parse (l_grammar l) -> (forall x, In x (lex_syms (l_grammar l)) -> exists u, ascii u /\ own_text parse (l_grammar l) x u) ->
  (complete_b (l_grammar l) (l_tables l) = true -> reads_back parse l (ap_name st)) /\
  (complete_b (l_grammar l) (l_tables l) = false ->
     exists tr leaves s, tree_ok (l_grammar l) tr /\ root (l_grammar l) tr = Some (SNon (ap_name st)) /\ yield tr = map fst leaves /\
       Forall (fun xu => own_text parse (l_grammar l) (fst xu) (snd xu)) leaves /\ Printed leaves s /\ ascii s /\ lalr_parse l s <> Ok (postorder tr)).
Proof.
  intros parse hash text l ast st hs Hb Hsay Hg Hst Hprod Hn Eh Hsp Hpr Hnw Hown.
  unfold build in Hb. apply bind_ok in Hb as (ast' & Ea & Hb). apply bind_ok in Hb as (g' & Hg' & Hl).
  destruct (C51_reading text) as [HR _]. apply HR in Hsay as Ea'. rewrite Ea' in Ea. injection Ea as <-. rewrite Hg in Hg'. injection Hg' as <-.
  pose proof (C52_file_ast _ _ Ea') as Hf. destruct (file_plain _ _ Hf Hg) as [Hp Hfr].
  destruct (new_parts _ _ _ _ Hl) as (_ & _ & Ht).
  destruct (grammar_from_ast_ok _ _ Hg) as (s' & Hs' & W & Haug & _). rewrite Hst in Hs'. injection Hs' as <-.
  split.
  - intros Hc tr leaves s H1 H2 H3 F1 HP Ha. apply (complete_b_iff _ _ _ W (proj2 Hp)) in Hc.
    destruct (C69_print_parse_partial parse hash ast _ st l hs Hf Hg Hst Hl Hn Eh Hsp Hpr Hnw leaves s F1 HP Ha) as [H' _]. auto.
  - intros Hc. apply complete_b_false in Hc as (i & p & d & k & x & Hi & Hx & Hm).
    destruct (item_tree _ _ W Haug (proj1 Hp) (proj2 Hp) Hprod hash _ Ht Hfr i p d k x Hi Hx) as (tr & Ho & Hr & HM).
    assert (HL : exists leaves, map fst leaves = yield tr /\ Forall (fun xu => own_text parse (l_grammar l) (fst xu) (snd xu)) leaves /\ Forall (fun xu => ascii (snd xu)) leaves).
    { assert (Hy : forall x, In x (yield tr) -> exists u, ascii u /\ own_text parse (l_grammar l) x u).
      { intros y Hy. apply Hown. apply filter_In.
        destruct (tree_tokens _ _ W (proj2 Hp) tr Ho Hr) as (w & Hend & _ & _ & Hw).
        assert (Hin : In y (g_tokens (l_grammar l))).
        { unfold symbols in Hw. assert (HI : In (Some y) (map (nth_error (g_tokens (l_grammar l))) w)) by (rewrite Hw; apply in_map, Hy).
          apply in_map_iff in HI as (k' & Hk' & _). eapply nth_error_In, Hk'. }
        split; auto. pose proof (tree_terminals _ tr Ho) as Htm. unfold terminals in Htm. rewrite Forall_forall in Htm. specialize (Htm y Hy).
        destruct y as [u|n|u| |]; auto; [exfalso; eapply Htm; reflexivity|exfalso..].
        - assert (U : Forall (used (l_grammar l)) (yield tr)).
          { eapply derives_used; [eapply tree_derives; eauto|]. constructor; [|constructor]. eexists. split; [eapply nth_error_In, (wg_prod0 _ _ W)|left; reflexivity]. }
          rewrite Forall_forall in U. destruct (U _ Hy) as (q & Hq & Hqx). exact (proj2 (proj1 Hp q Hq) Hqx).
        - revert Hy. apply (no_eof _ tr (proj2 Hp) Ho). rewrite Hr. discriminate. }
      revert Hy. generalize (yield tr) as l0. clear. induction l0 as [|x l0 IH]; intros H; [exists []; repeat constructor|].
      destruct IH as (leaves & E & F1 & F2); [intros; apply H; right; auto|]. destruct (H x (or_introl eq_refl)) as (u & Ha & Ho).
      exists ((x, u) :: leaves). cbn [map fst]. rewrite E. repeat split; constructor; auto. }
    destruct HL as (leaves & E & F1 & F2). destruct (printed_all leaves) as (s & HP & Ha). specialize (Ha F2).
    exists tr, leaves, s. do 6 (split; auto). intros Eq.
    destruct (C36_accepts_iff_partial parse hash ast _ st l hs Hf Hg Hst Hl Hn Eh Hsp Hpr s) as (ts & rest & syms & _ & _ & _ & Hacc & _).
    destruct (proj1 (Hacc _) Eq) as (_ & tr' & j & H1 & H2 & _ & M & Eq').
    assert (tr = tr') as <- by (eapply post_inj; eauto; congruence). destruct (HM j M) as [E1 E2].
    destruct Hm as [[Htx Hn']|(A & -> & Hn')].
    + assert (Hu : used (l_grammar l) x) by (destruct Hx as (pr & Hpr' & Hx); exists pr; split; eapply nth_error_In; eauto).
      destruct (used_tok _ _ x W (proj2 Hp) Hu) as [kx Hk]. destruct (E1 Htx kx Hk) as [j' Ej]. exact (Hn' kx Hk j' Ej).
    + destruct (E2 A eq_refl) as [j' Ej]. congruence.
Qed.
Print Assumptions C93_gap_costs.

(** The committed grammar passes the check. *)
Example C93_nonvacuous_lisp : exists l, build lisp_regex ehash lisp_text = Ok l /\ sound_b lisp_regex l = true.
Proof.
  destruct (build lisp_regex ehash lisp_text) as [l| |] eqn:E; [|vm_compute in E; discriminate E..]. exists l. split; auto.
  vm_compute in E. injection E as <-. vm_compute. reflexivity.
Qed.
(** [file_w28] does not, because a transition is missing; everything else is as it should be, so
    there is a text that spells out a parse tree and is refused or parsed otherwise. *)
Example C93_nonvacuous_gap : exists l tr leaves s, build reg ehash file_w28 = Ok l /\ sound_b reg l = false /\
  tree_ok (l_grammar l) tr /\ yield tr = map fst leaves /\ Printed leaves s /\ ascii s /\ lalr_parse l s <> Ok (postorder tr).
Proof.
  destruct (build reg ehash file_w28) as [l| |] eqn:E; [|vm_compute in E; discriminate E..].
  destruct (C82_text_end _ _ _ _ E) as (ast & st & lv & ac & Hsay & Hg & Hst & _).
  assert (Hc : complete_b (l_grammar l) (l_tables l) = false) by (clear -E; vm_compute in E; injection E as <-; vm_compute; reflexivity).
  assert (Hs : sound_b reg l = false) by (clear -E; vm_compute in E; injection E as <-; vm_compute; reflexivity).
  assert (HL : letters (l_grammar l)) by (clear -E; vm_compute in E; injection E as <-; apply letters_b_ok; vm_compute; reflexivity).
  assert (Hp : all_productive (l_grammar l)).
  { clear -E. vm_compute in E. injection E as <-. set (D := Node 6 [Leaf (Grammar.SStr [100]%N)]). set (A := Node 4 [Leaf (Grammar.SStr [99]%N); D]).
    set (B := Node 5 [Leaf (Grammar.SStr [102]%N); D]). apply (productive_b_ok _ [D; A; B; Node 1 [Leaf (Grammar.SStr [117]%N); A; Leaf (Grammar.SStr [112]%N)]]). vm_compute. reflexivity. }
  destruct (hirs reg (lex_syms (l_grammar l))) as [hs|] eqn:Eh; [|clear -E Eh; vm_compute in E; injection E as <-; vm_compute in Eh; discriminate Eh].
  assert (Hsp : split_b hs && forallb hir_ok_b hs = true) by (clear -E Eh; vm_compute in E; injection E as <-; vm_compute in Eh; injection Eh as <-; vm_compute; reflexivity).
  apply andb_true_iff in Hsp as [Hsp Hok].
  assert (HC : forall x, In x (lex_syms (l_grammar l)) -> exists c, x = Grammar.SStr [c] /\ (33 <= c <= 126)%N).
  { assert (HB : forallb (fun x => match x with Grammar.SStr [c] => N.leb 33 c && N.leb c 126 | _ => false end) (lex_syms (l_grammar l)) = true)
      by (clear -E; vm_compute in E; injection E as <-; vm_compute; reflexivity).
    intros x Hx. rewrite forallb_forall in HB. specialize (HB x Hx). destruct x as [[|c [|? ?]]| | | |]; try discriminate HB. exists c. split; auto.
    apply andb_true_iff in HB as [H1 H2]. apply N.leb_le in H1, H2. split; auto. }
  destruct (C93_gap_costs reg ehash file_w28 l ast st hs E Hsay Hg Hst Hp (letters_no_clash _ HL) (hirs_ok _ _ _ Eh) (split_b_ok _ Hsp)) as [_ H].
  - apply Forall_forall. intros h Hin. rewrite forallb_forall in Hok. apply hir_ok_productive. auto.
  - intros x u c Hx Hu Hin Hwh. destruct (HC x Hx) as (c' & -> & H1 & H2). cbn in Hu. subst u. destruct Hin as [<-|[]]. destruct Hwh as [->| ->]; lia.
  - intros x Hx. destruct (HC x Hx) as (c & -> & H1 & H2). exists [c]. split; [constructor; [lia|constructor]|]. split; [discriminate|].
    apply In_nth_error in Hx as [i Hi]. exists i. split; auto. split; [exists (Grammar.SStr [c]); split; [exact Hi|reflexivity]|].
    intros j x Hj Hx Hlx. destruct (proj2 HL x) as [d ->]; [eapply nth_error_In, Hx|]. cbn in Hlx. injection Hlx as ->.
    pose proof (proj1 HL) as Hnd. rewrite NoDup_nth_error in Hnd. assert (j = i); [|lia]. apply Hnd; [eapply nth_error_Some; congruence|congruence].
  - destruct (H Hc) as (tr & leaves & s & H1 & _ & H3 & _ & H5 & H6 & H7). exists l, tr, leaves, s. auto 10.
Qed.
