(** Property C79: giving tokens rules of their own. *)
From Verif Require Import Base IsoSpec Grammar GrammarSpec GrammarProofs GrammarCheck First FirstProofs Item ItemSpec ItemProofs ItemPlain
  Table TableSpec MergeProofs TableProofs TableFacts Witness PropsGrammar PropsTable Parse ParseSpec ParseCheck TreeFacts Auto ParseProofs
  ParseTerm ParseCycle ParseComplete PropsParse ReportSpec PropsReport CommonSpec PropsCommon
  Regex LexSpec Nfa Dfa Lex LexGrammar LexGrammarProofs Lalr EndSpec EndProofs Utf8Spec PropsEnd Iso IsoGrammar ParseGenCheck OwnSpec OwnProofs.

Local Ltac compute_ok := vm_compute; reflexivity.
Local Ltac open Eg Et := vm_compute in Eg; injection Eg as <-; vm_compute in Et; injection Et as <-.
Local Ltac wf_ok Eg := vm_compute in Eg; injection Eg as <-;
  split; [split; [apply eps_free_b_ok|apply eof_free_b_ok]|apply start_fresh_b_ok]; reflexivity.

(** What the lemmas about the two grammars need. *)
Lemma own_open names ast ast' g g' st : own_rules names ast ast' -> grammar_from_ast ast = Ok g -> grammar_from_ast ast' = Ok g' -> find ap_start ast = Some st ->
  wf_grammar g (ap_name st) /\ wf_grammar g' (ap_name st) /\ g_start g = aug_name (ap_name st) /\ g_start g' = aug_name (ap_name st) /\
  map shape (g_prods g) = (aug_name (ap_name st), [SNon (ap_name st)]) :: ast_rules ast /\
  map shape (g_prods g') = (aug_name (ap_name st), [SNon (ap_name st)]) :: ast_rules ast' /\
  (forall n, In n (map snd names) -> ~ In n (aug_name (ap_name st) :: ap_name st :: ast_names ast)) /\
  exists st', find ap_start ast' = Some st' /\ ap_name st' = ap_name st.
Proof.
  intros HO Hg Hg' Hs. destruct (ow_start _ _ _ HO) as (s & s' & Es & Es' & En & Hf). rewrite Hs in Es. injection Es as <-.
  destruct (grammar_from_ast_ok _ _ Hg) as (s1 & E1 & W & Hst & _). rewrite Hs in E1. injection E1 as <-.
  destruct (grammar_from_ast_ok _ _ Hg') as (s1' & E1' & W' & Hst' & _). rewrite Es' in E1'. injection E1' as <-.
  destruct (prods_rules _ _ Hg) as (s2 & E2 & _ & M). rewrite Hs in E2. injection E2 as <-.
  destruct (prods_rules _ _ Hg') as (s2' & E2' & _ & M'). rewrite Es' in E2'. injection E2' as <-. rewrite En in *. eauto 12.
Qed.

(** ** C79 *)

(** The language is the same. *)
Theorem C79_same_sentences :
  forall names ast ast' g g' st, own_rules names ast ast' -> grammar_from_ast ast = Ok g -> grammar_from_ast ast' = Ok g' -> find ap_start ast = Some st ->
  forall l, terminals l -> derives g' [SNon (ap_name st)] l <-> derives g [SNon (ap_name st)] l.
Proof.
  intros names ast ast' g g' st HO Hg Hg' Hs l Hl. destruct (own_open _ _ _ _ _ _ HO Hg Hg' Hs) as (_ & _ & _ & _ & M & M' & Hf & _).
  exact (derives_same names ast ast' g g' _ HO M M' Hf l Hl).
Qed.
Print Assumptions C79_same_sentences.

(** With rules of their own for all tokens written at more than one place, a grammar without LALR conflicts gets tables,
    if the item sets of the new grammar can be built (the last condition; false without it, below), whatever the hash function
    does without collisions. *)
Theorem C79_tables_partial :
  forall names ast ast' g g', own_rules names ast ast' -> grammar_from_ast ast = Ok g -> grammar_from_ast ast' = Ok g' -> eps_free g ->
  (forall I, lr_state g (F_std g) I -> ~ conflict g (lalr_of g (F_std g) I)) -> others_once names g -> own_computable names g ->
  exists lr0, items g' = Ok lr0 /\ forall hash, collision_free hash lr0 -> exists t, make_tables hash g' = Ok t.
Proof.
  intros names ast ast' g g' HO Hg Hg' He Hc Ho Hi. destruct (ow_start _ _ _ HO) as (s & s' & Hs & _).
  destruct (own_open _ _ _ _ _ _ HO Hg Hg' Hs) as (W & W' & _ & _ & M & M' & Hf & _).
  destruct (own_items names ast ast' g g' _ HO W W' M M' Hf He Hi) as [lr0 El]. exists lr0. split; auto. intros hash Hh.
  apply (C74_one_place_partial _ _ Hg' (own_eps_free names ast ast' g g' _ HO M M' He)) with (lr0 := lr0); auto.
  - exact (own_one_place names ast ast' g g' _ HO M M' Ho).
  - intros J HJ C. destruct (own_conflict names ast ast' g g' _ HO W W' M M' Hf J HJ C) as (I & HI & C'). exact (Hc I HI C').
Qed.
Print Assumptions C79_tables_partial.

(** Then the new parser is one for the old grammar: what it accepts is a sentence of the old grammar, its reductions without those of
    the new rules are a parse tree, and if no transition is missing (C28) it accepts every sentence. *)
Theorem C79_parses_partial :
  forall names ast ast' g g' st, own_rules names ast ast' -> grammar_from_ast ast = Ok g -> grammar_from_ast ast' = Ok g' -> find ap_start ast = Some st -> well_formed g ->
  forall hash t, make_tables hash g' = Ok t ->
  forall tokens w' w l, ended tokens w' -> symbols g' w' l -> symbols g w l ->
  (forall ps, parse_impl g' t tokens = Ok ps -> exists tr, parse_tree g (ap_name st) w tr /\ old_rules g ps = postorder tr) /\
  (closed g' t -> forall tr, parse_tree g (ap_name st) w tr -> exists ps, parse_impl g' t tokens = Ok ps /\ old_rules g ps = postorder tr).
Proof.
  intros names ast ast' g g' st HO Hg Hg' Hs [[He Hef] Hfr] hash t Ht tokens w' w l Hend Hl' Hl.
  destruct (own_open _ _ _ _ _ _ HO Hg Hg' Hs) as (W & W' & Hst & Hst' & M & M' & Hf & st' & Hs' & En).
  assert (Hp' : plain g') by (split; [exact (own_eps_free names ast ast' g g' _ HO M M' He)|exact (own_eof_free names ast ast' g g' _ HO M M' Hef)]).
  pose proof (own_start_fresh names ast ast' g g' _ HO M M' Hf Hst Hst' Hfr) as Hfr'.
  assert (Hw : wrel1 names (SNon (ap_name st)) (SNon (ap_name st))).
  { left. split; auto. intros n E. injection E as <-. intros C. apply (Hf _ C). right. left. reflexivity. }
  split.
  - intros ps Hps. apply (C30_accepts_iff _ _ _ Hg' Hs' Hp' Hfr' _ _ Ht _ _ _ Hend) in Hps as (tr & j & (Ho & Hr & Hy) & _ & ->). rewrite En in Hr.
    destruct (collapse_ok names ast ast' g g' _ HO M M' Hf tr (SNon (ap_name st)) Ho) as (A1 & A2 & A3 & A4); [eauto|].
    eexists. split; [|symmetry; exact A4]. split; auto. split; auto. unfold symbols in *. rewrite A3, Hl, <- Hl'. exact Hy.
  - intros Hcl tr (Ho & Hr & Hy). destruct (expand_ok names ast ast' g g' _ HO M M' Hf tr _ _ Ho Hr Hw) as (tr' & A1 & A2 & A3 & A4).
    exists (postorder tr'). split; auto. apply (proj1 (C30_completeness_partial _ _ _ Hg' Hs' Hp' Hfr' _ _ Ht Hcl _ _ Hend)). rewrite En. split; auto. split; auto.
    unfold symbols in *. rewrite A3, Hl', <- Hl. exact Hy.
Qed.
Print Assumptions C79_parses_partial.

(** The same for texts: the parser of the new grammar reads them with the tokens of the old one, and what it accepts is derived by the old one. *)
Theorem C79_text_partial :
  forall names ast ast' g g' st parse hash l', own_rules names ast ast' -> grammar_from_ast ast = Ok g -> grammar_from_ast ast' = Ok g' -> find ap_start ast = Some st ->
  file_ast ast' -> no_clash g -> lalr_new parse hash g' = Ok l' ->
  forall input, exists toks rest, reading parse g input toks rest /\ (ascii input -> sliced input (toks_texts toks)) /\
    ((exists ps, lalr_parse l' input = Ok ps) -> derives g [SNon (ap_name st)] (toks_syms toks)) /\
    (closed g' (l_tables l') -> sliced input (toks_texts toks) ->
       ((exists ps, lalr_parse l' input = Ok ps) <-> derives g [SNon (ap_name st)] (toks_syms toks)) /\
       (lalr_parse l' input = Panic PInvalidToken <-> ~ derives g [SNon (ap_name st)] (toks_syms toks))).
Proof.
  intros names ast ast' g g' st parse hash l' HO Hg Hg' Hs Hfile Hno Hl input.
  destruct (own_open _ _ _ _ _ _ HO Hg Hg' Hs) as (W & W' & _ & _ & M & M' & Hf & st' & Hs' & En).
  assert (Hno' : no_clash g').
  { intros s [H1 H2]. apply (Hno s). split; apply (token_bw names ast ast' g g' _ HO W W' M M'); auto; intros n C; discriminate C. }
  destruct (C36_decides_partial parse hash ast' g' st' l' Hfile Hg' Hs' Hl Hno' input) as (toks & rest & [Hlay Hin] & Ha & _ & H1 & H2). rewrite En in *.
  exists toks, rest. rewrite (own_lex_syms names ast ast' g g' _ HO W W' M M') in Hin.
  assert (Ht : terminals (toks_syms toks)).
  { apply Forall_forall. intros x Hx. unfold toks_syms in Hx. apply in_map_iff in Hx as ([[p y] u] & E & Hx). cbn in E. subst y. apply Hin in Hx as [Hx _].
    apply filter_In in Hx as [_ Hx]. intros n ->. discriminate Hx. }
  pose proof (C79_same_sentences _ _ _ _ _ _ HO Hg Hg' Hs _ Ht) as Eq.
  split; [split; auto|]. split; auto. split; [intros H; apply Eq, H1, H|]. intros Hc Hsl. destruct (H2 Hc Hsl) as [H3 H4]. rewrite Eq in H3, H4. auto.
Qed.
Print Assumptions C79_text_partial.

(** Checking [others_once]. *)
Definition places (g : grammar) : list (nat * nat * sym) :=
  flat_map (fun p => match nth_error (g_prods g) p with Some pr => map (fun d => (p, d, nth d (p_syms pr) SEps)) (seq 0 (length (p_syms pr))) | None => [] end)
    (seq 0 (length (g_prods g))).
Definition others_once_b (names : list (sym * str)) (g : grammar) : bool :=
  forallb (fun u => forallb (fun v => match snd u with SNon _ => true | _ =>
    existsb (fun e => eqb (fst e) (snd u)) names || negb (eqb (snd u) (snd v)) || eqb (fst u) (fst v) end) (places g)) (places g).
Lemma places_in g p d x : sym_at g p d x -> In (p, d, x) (places g).
Proof.
  intros (pr & Hp & Hd). apply in_flat_map. exists p. split; [apply in_seq; apply nth_error_lt in Hp; lia|]. rewrite Hp. apply in_map_iff. exists d.
  split; [f_equal; apply nth_error_nth, Hd|apply in_seq; apply nth_error_lt in Hd; lia].
Qed.
Lemma others_once_b_ok names g : others_once_b names g = true -> others_once names g.
Proof.
  intros H p d p' d' x Hx Hn H1 H2. apply places_in in H1, H2. unfold others_once_b in H. rewrite forallb_forall in H. specialize (H _ H1). cbn [snd fst] in H.
  rewrite forallb_forall in H. specialize (H _ H2). cbn [snd fst] in H. destruct x; try (destruct (Hx _ eq_refl));
  (apply orb_true_iff in H as [H|H]; [apply orb_true_iff in H as [H|H]; [|rewrite eqb_refl in H; discriminate H]|apply eqb_eq, H];
   exfalso; apply Hn; apply existsb_exists in H as (e & He & E); apply eqb_eq in E; rewrite <- E; apply in_map, He).
Qed.

(** False without the condition on what stands behind the tokens: S -> S "a" | "(" S ")" | "b" gets tables,
    but with P for "(" and P -> "(" building does not end (FIRST of the left-recursive S, C21). *)
Definition w79 : list aprod := [PS 83 [[V 83; T 97]; [T 40; V 83; T 41]; [T 98]]].
Definition w79_own : list aprod := [PS 83 [[V 83; T 97]; [V 80; V 83; T 41]; [T 98]]; P 80 [[T 40]]].
Theorem C79_tables_refuted :
  exists names ast ast' g g' t, own_rules names ast ast' /\ tables_of ast g t /\ well_formed g /\ others_once names g /\ grammar_from_ast ast' = Ok g' /\
    forall hash, make_tables hash g' = Diverge.
Proof.
  exists [(SStr [40]%N, [80]%N)], w79, w79_own.
  destruct (grammar_from_ast w79) as [g| |] eqn:Eg; [|vm_compute in Eg; discriminate Eg..].
  destruct (make_tables ehash g) as [t| |] eqn:Et; [|vm_compute in Eg; injection Eg as <-; vm_compute in Et; discriminate Et..].
  destruct (grammar_from_ast w79_own) as [g'| |] eqn:Eg'; [|vm_compute in Eg'; discriminate Eg'..].
  exists g, g', t. split; [|split; [apply tables_of_any; auto|split; [wf_ok Eg|split]]].
  - split.
    + reflexivity.
    + intros x n [E|[]]. injection E as <- <-. split; [intros m C; discriminate C|]. exists [83]%N, [SStr [40]; SNon [83]; SStr [41]]%N. vm_compute. auto 10.
    + repeat constructor. intros [].
    + repeat constructor. intros [].
    + eexists _, _. split; [reflexivity|]. split; [reflexivity|]. split; [reflexivity|]. intros n [<-|[]] H. vm_compute in H. intuition discriminate.
  - clear Et. vm_compute in Eg. injection Eg as <-. apply others_once_b_ok. compute_ok.
  - split; auto. intros hash. unfold make_tables. assert (E : items g' = Diverge) by (vm_compute in Eg'; injection Eg' as <-; compute_ok). rewrite E. reflexivity.
Qed.
Print Assumptions C79_tables_refuted.

(** The list with separators again: L -> x "," L | x never gets tables (C74); with X -> x and C -> "," it does, and they parse "x,x". *)
Definition n79 : list (sym * str) := [(SStr [120], [88]); (SStr [44], [67])]%N.
Lemma own_list : own_rules n79 w74_list w74_list'.
Proof.
  split.
  - reflexivity.
  - intros x n [E|[E|[]]]; injection E as <- <-; (split; [intros m C; discriminate C|]); exists [76]%N, [SStr [120]; SStr [44]; SNon [76]]%N; vm_compute; auto 10.
  - repeat constructor; cbn; intuition discriminate.
  - repeat constructor; cbn; intuition discriminate.
  - eexists _, _. split; [reflexivity|]. split; [reflexivity|]. split; [reflexivity|]. intros n [<-|[<-|[]]] H; vm_compute in H; intuition discriminate.
Qed.
Example C79_tables_nonvacuous : exists g g', grammar_from_ast w74_list = Ok g /\ grammar_from_ast w74_list' = Ok g' /\ own_rules n79 w74_list w74_list' /\ well_formed g /\
  (forall hash t, make_tables hash g <> Ok t) /\
  (forall I, lr_state g (F_std g) I -> ~ conflict g (lalr_of g (F_std g) I)) /\ others_once n79 g /\ own_computable n79 g.
Proof.
  destruct C74_start_nonvacuous as (g & p & q & pp & b & Eg & Hwf & Hsb & Hpp & Hd).
  destruct (grammar_from_ast w74_list') as [g'| |] eqn:Eg'; [|vm_compute in Eg'; discriminate Eg'..].
  exists g, g'. split; auto. split; auto. split; [apply own_list|]. split; auto. pose proof Hwf as [[He _] Hfr].
  split; [intros hash t; exact (C74_start_refuted _ _ _ Eg eq_refl He Hfr _ _ _ _ _ Hsb Hpp Hd hash t)|]. clear p q pp b Hsb Hpp Hd.
  destruct (grammar_from_ast_ok _ _ Eg) as (st & _ & W & _).
  split; [|split].
  - destruct (items g) as [lr0| |] eqn:El; [|vm_compute in Eg; injection Eg as <-; vm_compute in El; discriminate El..].
    apply (conflict_free_b_ok g _ lr0 W He El). vm_compute in Eg. injection Eg as <-. vm_compute in El. injection El as <-. reflexivity.
  - apply others_once_b_ok. vm_compute in Eg. injection Eg as <-. compute_ok.
  - assert (HR : has_rule g [76]%N) by (vm_compute in Eg; injection Eg as <-; eexists; split; [right; left; reflexivity|reflexivity]).
    assert (HB : forall A y l, rule g A (y :: l) -> y = SNon [76]%N /\ A <> [76]%N \/ y = SStr [120]%N).
    { intros A y l (p & Hp & <- & E). vm_compute in Eg. injection Eg as <-. destruct Hp as [<-|[<-|[<-|[]]]]; injection E as <- _; auto. left. split; auto. intros C; discriminate C. }
    assert (HL : ~ left_recursive g [76]%N).
    { intros H. apply (left_recursive_lms g He) in H as (y & l & Hr & Hl). destruct (HB _ _ _ Hr) as [[_ C]|E]; [destruct (C eq_refl)|subst y]. inversion Hl. }
    intros p pr d x _ Hp Hx. split.
    + intros B ->. assert (B = [76]%N) as ->; [|exact HR]. apply nth_error_In in Hp, Hx. clear -Eg Hp Hx. vm_compute in Eg. injection Eg as <-.
      destruct Hp as [<-|[<-|[<-|[]]]]; cbn [p_syms In] in Hx; repeat (destruct Hx as [Hx|Hx]; [try discriminate Hx; injection Hx as <-; reflexivity|]); destruct Hx.
    + intros _ y Hy A b Hd. assert (Ey : y = SNon [76]%N \/ y = SStr [44]%N).
      { clear -Eg Hp Hx Hy. vm_compute in Eg. injection Eg as <-. apply nth_error_In in Hp. destruct Hp as [<-|[<-|[<-|[]]]]; cbn [p_syms] in Hy;
          do 2 (destruct d as [|d]; [try discriminate Hy; injection Hy as <-; auto|]); destruct d; discriminate Hy. }
      assert (A = [76]%N) as ->; [|auto]. apply (derives_cons_head g _ _ _ _ He) in Hd. destruct Ey as [-> | ->]; [|inversion Hd].
      inversion Hd as [|A' z l' z' Hr Hl]; subst; auto. destruct (HB _ _ _ Hr) as [[_ C]|E]; [destruct (C eq_refl)|subst z]. inversion Hl.
Qed.
Example C79_parses_nonvacuous : exists g g' t, grammar_from_ast w74_list = Ok g /\ tables_of w74_list' g' t /\ own_rules n79 w74_list w74_list' /\ well_formed g /\ closed g' t /\
  file_ast w74_list' /\ no_clash g /\
  exists tokens w' w l ps, ended tokens w' /\ symbols g' w' l /\ symbols g w l /\ length w = 3 /\ parse_impl g' t tokens = Ok ps /\ old_rules g ps = [2; 1].
Proof.
  destruct (grammar_from_ast w74_list) as [g| |] eqn:Eg; [|vm_compute in Eg; discriminate Eg..].
  destruct (grammar_from_ast w74_list') as [g'| |] eqn:Eg'; [|vm_compute in Eg'; discriminate Eg'..].
  destruct (make_tables ehash g') as [t| |] eqn:Et; [|vm_compute in Eg'; injection Eg' as <-; vm_compute in Et; discriminate Et..].
  exists g, g', t. split; auto. split; [apply tables_of_any; auto|]. split; [apply own_list|]. split; [wf_ok Eg|].
  vm_compute in Eg. injection Eg as <-. open Eg' Et. split; [apply closed_b_ok; compute_ok|]. split; [apply file_ast_b_ok; compute_ok|].
  split; [intros s [_ H]; cbn in H; intuition discriminate|].
  eexists [2; 1; 2; 0], [2; 1; 2], [2; 1; 2], [SStr [120]; SStr [44]; SStr [120]]%N, _. split; [split; [reflexivity|cbn; intuition discriminate]|]. split; [reflexivity|]. split; [reflexivity|]. split; [reflexivity|]. split; [compute_ok|compute_ok].
Qed.
