(** Property C92: the parser finds every parse tree exactly if no transition is missing from the tables. *)
From Verif Require Import Base Grammar GrammarSpec GrammarProofs GrammarCheck First Item ItemSpec ItemProofs ItemPlain
  Table TableSpec MergeProofs TableProofs TableFacts Witness PropsTable Parse ParseSpec ParseCheck TreeFacts Auto ParseProofs
  ParseTerm ParseCycle ParseComplete ParseExact PropsParse Report ReportSpec ReportProofs PropsReport ViableSpec CompleteProofs.

Local Ltac compute_ok := vm_compute; reflexivity.
Local Ltac open Eg Et := vm_compute in Eg; injection Eg as <-; vm_compute in Et; injection Et as <-.
Local Ltac wf_ok Eg := vm_compute in Eg; injection Eg as <-;
  split; [split; [apply eps_free_b_ok|apply eof_free_b_ok]|apply start_fresh_b_ok]; reflexivity.
Local Ltac made w Eg Et g t := destruct (grammar_from_ast w) as [g| |] eqn:Eg; [|vm_compute in Eg; discriminate Eg..];
  destruct (make_tables ehash g) as [t| |] eqn:Et; [|vm_compute in Eg; injection Eg as <-; vm_compute in Et; discriminate Et..].

(** What the user wants of the parser: every parse tree of every sentence is what it gives. *)
Definition finds_all (g : grammar) (start : str) (t : tables) : Prop :=
  forall tokens w tr, ended tokens w -> parse_tree g start w tr -> parse_impl g t tokens = Ok (postorder tr).
(** Every sentence is accepted. *)
Definition accepts_all (g : grammar) (start : str) (t : tables) : Prop :=
  forall tokens w, ended tokens w -> sentence g start w -> exists ps, parse_impl g t tokens = Ok ps.
(** No sentence has two trees. *)
Definition unambiguous (g : grammar) (start : str) : Prop :=
  forall w tr tr', parse_tree g start w tr -> parse_tree g start w tr' -> tr = tr'.

(** Every item of every state of the tables costs a parse tree if the transition over the symbol
    after its dot is missing. *)
Theorem C92_missing_costs :
  forall ast g st, grammar_from_ast ast = Ok g -> find ap_start ast = Some st -> plain g -> start_fresh g -> all_productive g ->
  forall hash t, make_tables hash g = Ok t ->
  forall i p d k x, ParseSpec.st t i p d k -> sym_at g p d x ->
  ((exists kx, terminal x /\ tok g kx x /\ forall j, tbl_get (t_action t) i kx <> Some (Shift j)) \/
   (exists A, x = SNon A /\ tbl_get (t_goto t) i A = None)) ->
  exists tokens w tr, ended tokens w /\ parse_tree g (ap_name st) w tr /\ parse_impl g t tokens <> Ok (postorder tr).
Proof.
  intros ast g s Hg Hs [He Heof] Hf Hp hash t Ht i p d k x Hi Hx Hm.
  destruct (grammar_from_ast_ok _ _ Hg) as (s' & Hs' & W & Hst & _). rewrite Hs in Hs'. injection Hs' as <-.
  destruct (item_tree g _ W Hst He Heof Hp hash t Ht Hf i p d k x Hi Hx) as (tr & Ho & Hr & HM).
  destruct (tree_tokens g _ W Heof tr Ho Hr) as (w & Hend & Hw). exists (w ++ [0]), w, tr. split; auto. split; auto.
  intros E. destruct (found_moves g _ W Hst He Heof hash t Ht Hf w tr Hend Hw E) as [j M]. destruct (HM j M) as [H1 H2].
  destruct Hm as [(kx & Htx & Hk & Hn)|(A & -> & Hn)].
  - destruct (H1 Htx kx Hk) as [j' E']. exact (Hn j' E').
  - destruct (H2 A eq_refl) as [j' E']. congruence.
Qed.
Print Assumptions C92_missing_costs.

(** The parser gives every parse tree of every sentence exactly if no transition is missing. *)
Theorem C92_finds_all_iff :
  forall ast g st, grammar_from_ast ast = Ok g -> find ap_start ast = Some st -> plain g -> start_fresh g -> all_productive g ->
  forall hash t, make_tables hash g = Ok t -> (finds_all g (ap_name st) t <-> closed g t).
Proof.
  intros ast g s Hg Hs Hpl Hf Hp hash t Ht. split.
  - intros H i p d k x Hi Hx. destruct Hpl as [He Heof].
    destruct (grammar_from_ast_ok _ _ Hg) as (s' & Hs' & W & Hst & _). rewrite Hs in Hs'. injection Hs' as <-.
    destruct (item_tree g _ W Hst He Heof Hp hash t Ht Hf i p d k x Hi Hx) as (tr & Ho & Hr & HM).
    destruct (tree_tokens g _ W Heof tr Ho Hr) as (w & Hend & Hw).
    destruct (found_moves g _ W Hst He Heof hash t Ht Hf w tr Hend Hw (H _ w tr Hend Hw)) as [j M]. exact (HM j M).
  - intros Hcl tokens w tr Hend Hw.
    destruct (C30_completeness_partial ast g s Hg Hs Hpl Hf hash t Ht Hcl tokens w Hend) as [H _]. apply H, Hw.
Qed.
Print Assumptions C92_finds_all_iff.

(** In terms of sentences: no transition is missing exactly if every sentence is accepted and none
    has two trees. *)
Theorem C92_accepts_all_iff :
  forall ast g st, grammar_from_ast ast = Ok g -> find ap_start ast = Some st -> plain g -> start_fresh g -> all_productive g ->
  forall hash t, make_tables hash g = Ok t ->
  (accepts_all g (ap_name st) t /\ unambiguous g (ap_name st) <-> closed g t).
Proof.
  intros ast g s Hg Hs Hpl Hf Hp hash t Ht. rewrite <- (C92_finds_all_iff ast g s Hg Hs Hpl Hf Hp hash t Ht). split.
  - intros [Ha Hu] tokens w tr Hend Hw. pose proof Hw as (Ho & Hr & Hy).
    destruct (Ha tokens w Hend) as [ps E]; [exists (yield tr); split; auto; split; [eapply tree_terminals; eauto|eapply tree_derives; eauto]|].
    pose proof E as E'. apply (C30_accepts_iff ast g s Hg Hs Hpl Hf hash t Ht tokens w ps Hend) in E' as (tr' & j & Hw' & _ & ->).
    rewrite E. f_equal. f_equal. eapply Hu; eauto.
  - intros H. split.
    + intros tokens w Hend (l & Hl & Htl & Hd). destruct (derives_tree g _ _ Hd Htl) as (tr & Ho & Hr & <-).
      exists (postorder tr). apply (H tokens w tr Hend). split; auto.
    + intros w tr tr'. eapply (C33_unambiguous_partial ast g s Hg Hs Hpl Hf hash t Ht).
      apply (C92_finds_all_iff ast g s Hg Hs Hpl Hf Hp hash t Ht), H.
Qed.
Print Assumptions C92_accepts_all_iff.

(** Looking at the tables decides it, and where it fails a parse tree that is not found exists. *)
Theorem C92_decided :
  forall ast g st, grammar_from_ast ast = Ok g -> find ap_start ast = Some st -> plain g -> start_fresh g -> all_productive g ->
  forall hash t, make_tables hash g = Ok t ->
  (complete_b g t = true -> finds_all g (ap_name st) t) /\
  (complete_b g t = false -> exists tokens w tr, ended tokens w /\ parse_tree g (ap_name st) w tr /\ parse_impl g t tokens <> Ok (postorder tr)).
Proof.
  intros ast g s Hg Hs Hpl Hf Hp hash t Ht. pose proof (C92_finds_all_iff ast g s Hg Hs Hpl Hf Hp hash t Ht) as I.
  destruct (grammar_from_ast_ok _ _ Hg) as (s' & Hs' & W & Hst & _). rewrite Hs in Hs'. injection Hs' as <-.
  pose proof (complete_b_iff g _ t W (proj2 Hpl)) as D. split.
  - intros H. apply I, D, H.
  - intros H. destruct (complete_b_false g t H) as (i & p & d & k & x & Hi & Hx & Hm).
    eapply (C92_missing_costs ast g s Hg Hs Hpl Hf Hp hash t Ht i p d k x Hi Hx).
    destruct Hm as [[Hx' Hm]|(A & -> & Hm)].
    + left. assert (Hu : used g x) by (destruct Hx as (pr & Hpr & Hx); exists pr; split; eapply nth_error_In; eauto).
      destruct (used_tok g _ x W (proj2 Hpl) Hu) as [kx Hk]. exists kx. split; auto.
    + right. exists A. auto.
Qed.
Print Assumptions C92_decided.

(** All trees for a symbol, if there are finitely many: none for the names in [dead]. *)
Fixpoint forests (l : list (list tree)) : list (list tree) :=
  match l with [] => [[]] | trs :: l => flat_map (fun tr => map (cons tr) (forests l)) trs end.
Fixpoint trees (g : grammar) (dead : list str) (n : nat) (x : sym) : option (list tree) :=
  match x with
  | SNon A => if existsb (eqb A) dead then Some [] else
      match n with
      | 0 => None
      | S n => fold_right (fun p acc => match acc with None => None | Some acc =>
                 if eqb (p_name (snd p)) A then
                   match fold_right (fun y r => match trees g dead n y, r with Some trs, Some r => Some (trs :: r) | _, _ => None end) (Some []) (p_syms (snd p)) with
                   | Some l => Some (map (Node (fst p)) (forests l) ++ acc) | None => None end
                 else Some acc end) (Some []) (enumerate (g_prods g))
      end
  | _ => Some [Leaf x]
  end.
(** A name is dead if all its alternatives have a dead name. *)
Definition dead_b (g : grammar) (dead : list str) : bool :=
  forallb (fun p => negb (existsb (eqb (p_name p)) dead) ||
    existsb (fun x => match x with SNon A => existsb (eqb A) dead | _ => false end) (p_syms p)) (g_prods g).
Lemma dead_no_tree g dead : dead_b g dead = true -> forall tr A, tree_ok g tr -> root g tr = Some (SNon A) -> existsb (eqb A) dead = false.
Proof.
  intros H. unfold dead_b in H. rewrite forallb_forall in H.
  induction tr as [x|p ts IH] using tree_ind'; intros A Ho Hr; inversion Ho as [? Hx|? pr ? Hp Hts Hm]; subst.
  { injection Hr as ->. exfalso. eapply Hx. reflexivity. }
  cbn [root] in Hr. rewrite Hp in Hr. injection Hr as <-.
  destruct (existsb (eqb (p_name pr)) dead) eqn:E; auto. specialize (H pr (nth_error_In _ _ Hp)). rewrite E in H. cbn [negb orb] in H.
  apply existsb_exists in H as ([n'|B|n'| |] & Hin & HB); try discriminate.
  assert (Hc : In (Some (SNon B)) (map (root g) ts)) by (rewrite Hm; apply in_map; exact Hin).
  apply in_map_iff in Hc as (tr & Hr & Htr). rewrite Forall_forall in Hts, IH. rewrite (IH tr Htr B) in HB; auto.
Qed.
Lemma trees_all g dead : dead_b g dead = true -> forall n x l tr, trees g dead n x = Some l -> tree_ok g tr -> root g tr = Some x -> In tr l.
Proof.
  intros Hd. induction n as [|n IH]; intros x l tr E Ho Hr.
  - destruct Ho as [y Hy|p pr ts Hp Hts Hm].
    + injection Hr as ->. destruct x; try (injection E as <-; left; reflexivity). exfalso. eapply Hy. reflexivity.
    + cbn [root] in Hr. rewrite Hp in Hr. injection Hr as <-. cbn [trees] in E.
      rewrite (dead_no_tree g dead Hd (Node p ts) (p_name pr)) in E; [discriminate|econstructor; eauto|cbn [root]; rewrite Hp; reflexivity].
  - destruct Ho as [y Hy|p pr ts Hp Hts Hm].
    + injection Hr as ->. destruct x; try (injection E as <-; left; reflexivity). exfalso. eapply Hy. reflexivity.
    + cbn [root] in Hr. rewrite Hp in Hr. injection Hr as <-. cbn [trees] in E.
      rewrite (dead_no_tree g dead Hd (Node p ts) (p_name pr)) in E; [|econstructor; eauto|cbn [root]; rewrite Hp; reflexivity].
      apply enumerate_In in Hp. revert l E. induction (enumerate (g_prods g)) as [|q qs IHq]; intros l E; [contradiction|]. cbn [fold_right] in E.
      match type of E with match ?a with _ => _ end = _ => destruct a as [acc|] eqn:Ea; [|discriminate] end.
      destruct Hp as [->|Hp].
      * cbn [fst snd] in E. rewrite eqb_refl in E.
        match type of E with match ?a with _ => _ end = _ => destruct a as [m|] eqn:Em; [|discriminate] end.
        injection E as <-. apply in_or_app. left. apply in_map. clear IHq Ea Hd acc qs. revert ts m Hts Hm Em.
        induction (p_syms pr) as [|y ys IHy]; intros [|tr ts] m Hts Hm Em; try discriminate; cbn [fold_right] in Em.
        -- injection Em as <-. left. reflexivity.
        -- injection Hm as Hy Hm. inversion Hts as [|? ? H1 H2]; subst.
           destruct (trees g dead n y) as [trs|] eqn:Ew; [|discriminate].
           match type of Em with match ?a with _ => _ end = _ => destruct a as [m'|] eqn:Em'; [|discriminate] end.
           injection Em as <-. cbn [forests flat_map]. apply in_flat_map. exists tr. split; [eapply IH; eauto|].
           apply in_map. eapply IHy; eauto.
      * assert (Hin : In (Node p ts) acc) by (apply IHq; auto).
        destruct (eqb (p_name (snd q)) (p_name pr)); [|injection E as <-; exact Hin].
        match type of E with match ?a with _ => _ end = _ => destruct a as [m|] eqn:Em; [|discriminate] end.
        injection E as <-. apply in_or_app. right. exact Hin.
Qed.

(** The tokens of a tree, and whether the parser accepts them. *)
Definition taken (g : grammar) (t : tables) (tr : tree) : bool :=
  match mapM (fun x => match get_token_idx g x with Some k => Ok k | None => Panic PUnwrapNone end) (yield tr) with
  | Ok w => match parse_impl g t (w ++ [0]) with Ok _ => true | _ => false end
  | _ => false
  end.
Lemma symbols_idx g start w l : wf_grammar g start -> eof_free g -> symbols g w l ->
  mapM (fun x => match get_token_idx g x with Some k => Ok k | None => Panic PUnwrapNone end) l = Ok w.
Proof.
  intros W Heof. unfold symbols. revert l. induction w as [|k w IH]; intros [|x l] H; try discriminate; [reflexivity|].
  cbn [map] in H. injection H as Hk H. cbn [mapM]. rewrite (proj2 (token_idx_bij g start W x k Heof)) by exact Hk. cbn [bind].
  rewrite (IH l H). reflexivity.
Qed.
Lemma taken_all g start t dead n l : wf_grammar g start -> eof_free g -> dead_b g dead = true -> trees g dead n (SNon start) = Some l ->
  forallb (taken g t) l = true -> accepts_all g start t.
Proof.
  intros W Heof Hd El Hl tokens w [-> H0] (m & Hm & Htm & Hdm). destruct (derives_tree g _ _ Hdm Htm) as (tr & Ho & Hr & <-).
  rewrite forallb_forall in Hl. specialize (Hl tr (trees_all g dead Hd n _ l tr El Ho Hr)). unfold taken in Hl.
  rewrite (symbols_idx g start w _ W Heof Hm) in Hl. destruct (parse_impl g t (w ++ [0])) as [ps| |]; [eauto|discriminate..].
Qed.
Lemma one_unambiguous g start dead n tr0 : dead_b g dead = true -> trees g dead n (SNon start) = Some [tr0] -> unambiguous g start.
Proof.
  intros Hd El w tr tr' (Ho & Hr & _) (Ho' & Hr' & _).
  pose proof (trees_all g dead Hd n _ _ tr El Ho Hr) as H. pose proof (trees_all g dead Hd n _ _ tr' El Ho' Hr') as H'.
  destruct H as [<-|[]], H' as [<-|[]]. reflexivity.
Qed.

(** "Every sentence is accepted" alone does not give it:
    S -> u U p | v U q | w B r; U -> E | A T; E -> X D; A -> X; X -> c; T -> d; B -> f D; D -> d
    has a transition missing, and the sentences it would be needed for have a second tree. *)
Definition w92 : list aprod :=
  [PS 83 [[T 117; V 85; T 112]; [T 118; V 85; T 113]; [T 119; V 66; T 114]];
   P 85 [[V 69]; [V 65; V 84]]; P 69 [[V 88; V 68]]; P 65 [[V 88]]; P 88 [[T 99]]; P 84 [[T 100]]; P 66 [[T 102; V 68]]; P 68 [[T 100]]].
Theorem C92_sentences_refuted :
  exists ast g t st, tables_of ast g t /\ find ap_start ast = Some st /\ well_formed g /\ all_productive g /\
    accepts_all g (ap_name st) t /\ ~ closed g t.
Proof.
  exists w92. made w92 Eg Et g t. exists g, t. eexists. split; [apply tables_of_any; auto|]. split; [reflexivity|].
  split; [wf_ok Eg|].
  destruct (grammar_from_ast_ok _ _ Eg) as (s' & Hs' & W & _). cbn [find w92 PS ap_start] in Hs'. injection Hs' as <-.
  assert (Hf : eof_free g) by (clear W; vm_compute in Eg; injection Eg as <-; apply eof_free_b_ok; reflexivity).
  split; [|split].
  - clear W Hf. open Eg Et. set (X := Node 8 [Leaf (SStr [99]%N)]). set (D := Node 11 [Leaf (SStr [100]%N)]). set (T' := Node 9 [Leaf (SStr [100]%N)]).
    set (E := Node 6 [X; D]). set (U := Node 4 [E]). set (B := Node 10 [Leaf (SStr [102]%N); D]).
    apply (productive_b_ok _ [X; D; T'; E; U; B; Node 7 [X]; Node 3 [Leaf (SStr [119]%N); B; Leaf (SStr [114]%N)]]). compute_ok.
  - destruct (trees g [] 10 (SNon [83]%N)) as [l|] eqn:El; [|clear W Hf; open Eg Et; vm_compute in El; discriminate El].
    apply (taken_all g _ t [] 10 l W Hf); [clear W Hf El; open Eg Et; compute_ok|exact El|].
    clear W Hf. open Eg Et. vm_compute in El. injection El as <-. compute_ok.
  - intros Hcl. apply (complete_b_iff g _ t W Hf) in Hcl. clear W Hf. open Eg Et. vm_compute in Hcl. discriminate Hcl.
Qed.
Print Assumptions C92_sentences_refuted.

(** And with symbols that derive nothing, a missing transition need not matter:
    S -> o | u A p U | v A q U | w B r U; A -> c D; B -> f D; D -> d; U -> m U. *)
Definition w92' : list aprod :=
  [PS 83 [[T 111]; [T 117; V 65; T 112; V 85]; [T 118; V 65; T 113; V 85]; [T 119; V 66; T 114; V 85]];
   P 65 [[T 99; V 68]]; P 66 [[T 102; V 68]]; P 68 [[T 100]]; P 85 [[T 109; V 85]]].
Theorem C92_unproductive_refuted :
  exists ast g t st, tables_of ast g t /\ find ap_start ast = Some st /\ well_formed g /\
    accepts_all g (ap_name st) t /\ unambiguous g (ap_name st) /\ ~ closed g t.
Proof.
  exists w92'. made w92' Eg Et g t. exists g, t. eexists. split; [apply tables_of_any; auto|]. split; [reflexivity|].
  split; [wf_ok Eg|].
  destruct (grammar_from_ast_ok _ _ Eg) as (s' & Hs' & W & _). cbn [find w92' PS ap_start] in Hs'. injection Hs' as <-.
  assert (Hf : eof_free g) by (clear W; vm_compute in Eg; injection Eg as <-; apply eof_free_b_ok; reflexivity).
  assert (Hd : dead_b g [[85]%N] = true) by (clear W Hf; open Eg Et; compute_ok).
  split; [|split].
  - destruct (trees g [[85]%N] 10 (SNon [83]%N)) as [l|] eqn:El; [|clear W Hf Hd; open Eg Et; vm_compute in El; discriminate El].
    apply (taken_all g _ t [[85]%N] 10 l W Hf Hd El). clear W Hf Hd. open Eg Et. vm_compute in El. injection El as <-. compute_ok.
  - apply (one_unambiguous g _ [[85]%N] 10 (Node 1 [Leaf (SStr [111]%N)]) Hd). clear W Hf Hd. open Eg Et. compute_ok.
  - intros Hcl. apply (complete_b_iff g _ t W Hf) in Hcl. clear W Hf Hd. open Eg Et. vm_compute in Hcl. discriminate Hcl.
Qed.
Print Assumptions C92_unproductive_refuted.

(** The hypotheses are met by grammars of both kinds: w_cc has all transitions, w28 lacks some. *)
Example C92_nonvacuous :
  (exists g t st, tables_of w_cc g t /\ find ap_start w_cc = Some st /\ well_formed g /\ all_productive g /\ complete_b g t = true /\
     finds_all g (ap_name st) t) /\
  (exists g t st, tables_of w28 g t /\ find ap_start w28 = Some st /\ well_formed g /\ all_productive g /\ complete_b g t = false /\
     exists tokens w tr, ended tokens w /\ parse_tree g (ap_name st) w tr /\ parse_impl g t tokens <> Ok (postorder tr)).
Proof.
  split.
  - made w_cc Eg Et g t. exists g, t. eexists. split; [apply tables_of_any; auto|]. split; [reflexivity|].
    assert (Hw : well_formed g) by (wf_ok Eg).
    assert (Hp : all_productive g) by (clear Hw; open Eg Et; set (C := Node 3 [Leaf (SStr [100]%N)]); apply (productive_b_ok _ [C; Node 1 [C; C]]); compute_ok).
    assert (Hc : complete_b g t = true) by (clear Hw Hp; open Eg Et; compute_ok).
    split; auto. split; auto. split; auto. apply (C92_decided w_cc g _ Eg eq_refl (proj1 Hw) (proj2 Hw) Hp ehash t Et), Hc.
  - made w28 Eg Et g t. exists g, t. eexists. split; [apply tables_of_any; auto|]. split; [reflexivity|].
    assert (Hw : well_formed g) by (wf_ok Eg).
    assert (Hp : all_productive g) by (clear Hw; open Eg Et; set (D := Node 6 [Leaf (SStr [100]%N)]); set (A := Node 4 [Leaf (SStr [99]%N); D]);
      set (B := Node 5 [Leaf (SStr [102]%N); D]); apply (productive_b_ok _ [D; A; B; Node 1 [Leaf (SStr [117]%N); A; Leaf (SStr [112]%N)]]); compute_ok).
    assert (Hc : complete_b g t = false) by (clear Hw Hp; open Eg Et; compute_ok).
    split; auto. split; auto. split; auto. apply (C92_decided w28 g _ Eg eq_refl (proj1 Hw) (proj2 Hw) Hp ehash t Et), Hc.
Qed.
