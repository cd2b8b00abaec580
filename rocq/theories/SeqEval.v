(** Proofs for C89: the value of a parse tree is the value of its expression. *)
From Verif Require Import Base Text Lex Grammar GrammarSpec GrammarProofs First Item ItemSpec ItemProofs Table TableSpec Parse ParseSpec TreeFacts IsoSpec Iso
  TsUtil TsLex TsParse TsParseSpec LayerProofs SeqSpec SeqProofs SeqEvalSpec.

(** The text of a token; what a symbol stands for. *)
Inductive text_of : ts_tok -> list N -> Prop := to_lit n w : text_of (TTok n (Some (TLit w))) w.
Inductive arg_of {V} : symbol V -> arg V -> Prop :=
| ao_tok u w q : text_of u w -> arg_of (SymTok u q) (AText w)
| ao_non n v : arg_of (SymNon n v) (AVal v).
(** The code of the rules computes what the operators and the lists do; that of the rules from one level to the next gives the value it gets. *)
Definition interprets (V : Type) (g : grammar) (M : lang) (code : N -> list (symbol V) -> V)
    (op : nat -> nat -> form -> list (arg V) -> V) (one : nat -> V -> V) (more : nat -> V -> list N -> V -> V) : Prop :=
  forall p pr, p <> 0 -> nth_error (g_prods g) p = Some pr ->
  (forall s i v, s < lg_sorts M -> i < lg_top M s -> p_name pr = lg_name M s i -> p_syms pr = [SNon (lg_name M s (S i))] -> code (N.of_nat p) [SymNon (lg_name M s (S i)) v] = v) /\
  (forall s i f ss xs, is_form M s i f -> p_name pr = lg_name M s i -> p_syms pr = map (slot_sym M) (form_slots M s i f) ->
     Forall2 arg_of ss xs -> Forall2 arg_for (form_slots M s i f) xs -> code (N.of_nat p) ss = op s i f xs) /\
  (forall n v, n < ls_count M -> p_name pr = ls_name M n -> p_syms pr = [SNon (lg_name M (ls_sort M n) 0)] -> code (N.of_nat p) [SymNon (lg_name M (ls_sort M n) 0) v] = one n v) /\
  (forall n a u q w v, n < ls_count M -> p_name pr = ls_name M n -> p_syms pr = [SNon (ls_name M n); ls_sep M n; SNon (lg_name M (ls_sort M n) 0)] -> text_of u w ->
     code (N.of_nat p) [SymNon (ls_name M n) a; SymTok u q; SymNon (lg_name M (ls_sort M n) 0) v] = more n a w v).

Lemma elems_app V more n fs f : forall a ws, elems V more n a (fs ++ [f]) ws = let (a, ws) := elems V more n a fs ws in elems V more n a [f] ws.
Proof.
  induction fs as [|f0 fs IH]; intros a ws; [reflexivity|]. destruct ws as [|w ws]; [reflexivity|]. cbn [app elems]. destruct (f0 ws) as [v ws']. apply IH.
Qed.

Section Eval.
  Variable g : grammar.
  Variable M : lang.
  Notation E := (lg_name M).
  Notation top := (lg_top M).
  Hypothesis W : wf_grammar g (E 0 0).
  Hypothesis Hfresh : forall s i, s < lg_sorts M -> i <= top s -> aug_name (E 0 0) <> E s i.
  Hypothesis Hfresh' : forall n, n < ls_count M -> aug_name (E 0 0) <> ls_name M n.
  Hypothesis HR : forall p pr, nth_error (g_prods g) p = Some pr -> p <> 0 -> lrule M (p_name pr) (p_syms pr).
  Hypothesis OK : lang_ok M.
  Variable V : Type.
  Variable code : N -> list (symbol V) -> V.
  Variable op : nat -> nat -> form -> list (arg V) -> V.
  Variable one : nat -> V -> V.
  Variable more : nat -> V -> list N -> V -> V.
  Hypothesis HI : interprets V g M code op one more.
  Notation sy := (map (slot_sym M)).
  Notation ev := (leval V M op one more).
  Notation ok := (SeqProofs.ok M).

  (** The value of what stands at one place. *)
  Definition hval (h : hole) (es : list lexp) (ws : list (list N)) (v : V) (r : list (list N)) : Prop :=
    match h, es with
    | _, [] => False
    | HArg _ _, e :: _ => ev e ws = (v, r)
    | HList n, e :: es => let (v0, ws) := ev e ws in elems V more n (one n v0) (map ev es) ws = (v, r)
    end.
  Definition value (tr : tree) (h : hole) (es : list lexp) : Prop :=
    forall us x, Denotes V g code tr us x -> forall ws, Forall2 text_of us ws -> exists v, x = SymNon (hname M h) v /\ forall r, hval h es (ws ++ r) v r.
  Definition ev_tree (tr : tree) : Prop := forall h, hok M h -> tree_ok g tr -> root g tr = Some (SNon (hname M h)) ->
    exists es, lmeans g M tr es /\ fills M h es /\ length (postorder tr) = hole_rules h (map (lrules_used M) es) /\ value tr h es.

  Lemma slots_ev l : (forall x, In x l -> match x with Tok t => terminal t | Arg s' i' => s' < lg_sorts M /\ i' <= top s' | Lst n => n < ls_count M end) ->
    forall ts, Forall ev_tree ts -> Forall (tree_ok g) ts -> map (root g) ts = map Some (sy l) ->
    exists ess, Forall2 (lmeans g M) (nodes ts) ess /\ Forall2 (fills M) (holes l) ess /\
      length (flat_map postorder ts) = list_sum (map (fun x => hole_rules (fst x) (snd x)) (combine (holes l) (map (map (lrules_used M)) ess))) /\
      forall us ss, DenotesAll V g code ts us ss -> forall ws, Forall2 text_of us ws -> exists xs, Forall2 arg_of ss xs /\ Forall2 arg_for l xs /\ forall r, args V one more l (map (map ev) ess) (ws ++ r) = (xs, r).
  Proof.
    induction l as [|x l IH]; intros Hl [|t ts] HE HO Hm; try discriminate Hm.
    { exists []. split; [constructor|]. split; [constructor|]. split; [reflexivity|]. intros us ss HD ws Hw. inversion HD; subst. inversion Hw; subst. exists []. split; [constructor|]. split; [constructor|reflexivity]. }
    cbn [map] in Hm. injection Hm as Hr Hm. inversion HE as [|? ? I1 I2]; subst. inversion HO as [|? ? O1 O2]; subst.
    destruct (IH (fun y Hy => Hl y (or_intror Hy)) ts I2 O2 Hm) as (ess & G1 & G2 & G3 & G4). pose proof (Hl x (or_introl eq_refl)) as Hx. destruct x as [y|s i|n]; cbn [slot_sym] in Hr.
    - apply root_leaf in Hr; auto. subst t. exists ess. split; [exact G1|]. split; [exact G2|]. split; [exact G3|].
      intros us ss HD ws Hw. inversion HD as [|? u1 s1 ? us1 ss1 D1 D2]; subst. inversion D1; subst. cbn [app] in Hw. inversion Hw as [|? w ? ws' Hw1 Hw2]; subst.
      destruct (G4 _ _ D2 _ Hw2) as (xs & X1 & X0 & X2). exists (AText w :: xs). split; [constructor; auto; constructor; auto|]. split; [constructor; auto; exact I|]. intros r. cbn [args app]. rewrite X2. reflexivity.
    - destruct (I1 (HArg s i) Hx O1 Hr) as (es & M1 & M2 & M3 & M4). destruct (root_node _ _ _ Hr O1) as (q & us & ->). exists (es :: ess).
      split; [cbn; constructor; auto|]. split; [cbn; constructor; auto|]. split.
      { cbn [flat_map]. rewrite app_length, M3, G3. reflexivity. }
      intros us' ss HD ws Hw. inversion HD as [|? u1 s1 ? us1 ss1 D1 D2]; subst. apply Forall2_app_inv_l in Hw as (w1 & w2 & Hw1 & Hw2 & ->).
      destruct (M4 _ _ D1 _ Hw1) as (v & -> & X1). destruct (G4 _ _ D2 _ Hw2) as (xs & X2 & X0 & X3). exists (AVal v :: xs). split; [constructor; auto; constructor|]. split; [constructor; auto; exact I|].
      intros r. specialize (X1 (w2 ++ r)). rewrite <- app_assoc. destruct es as [|e es]; [destruct X1|]. cbn [hval] in X1. cbn [args map]. rewrite X1, X3. reflexivity.
    - destruct (I1 (HList n) Hx O1 Hr) as (es & M1 & M2 & M3 & M4). destruct (root_node _ _ _ Hr O1) as (q & us & ->). exists (es :: ess).
      split; [cbn; constructor; auto|]. split; [cbn; constructor; auto|]. split.
      { cbn [flat_map]. rewrite app_length, M3, G3. reflexivity. }
      intros us' ss HD ws Hw. inversion HD as [|? u1 s1 ? us1 ss1 D1 D2]; subst. apply Forall2_app_inv_l in Hw as (w1 & w2 & Hw1 & Hw2 & ->).
      destruct (M4 _ _ D1 _ Hw1) as (v & -> & X1). destruct (G4 _ _ D2 _ Hw2) as (xs & X2 & X0 & X3). exists (AVal v :: xs). split; [constructor; auto; constructor|]. split; [constructor; auto; exact I|].
      intros r. specialize (X1 (w2 ++ r)). rewrite <- app_assoc. destruct es as [|e es]; [destruct X1|]. cbn [hval] in X1. cbn [args map]. destruct (ev e _) as [v0 ws']. rewrite X1, X3. reflexivity.
  Qed.
  Lemma tree_ev' tr : ev_tree tr.
  Proof using W HR OK Hfresh Hfresh' HI.
    induction tr as [y|p ts IH] using tree_ind'; intros h Hh Ho Hr.
    { cbn [root] in Hr. injection Hr as ->. apply tree_ok_leaf in Ho. destruct (Ho _ eq_refl). }
    apply tree_ok_node in Ho as (pr & Hp & Hts & Hm). cbn [root] in Hr. rewrite Hp in Hr. injection Hr as Hr. assert (Hru : rul g p (p_name pr) (p_syms pr)) by (exists pr; auto).
    destruct h as [s i|n]; cbn [hok hname] in *.
    - pose proof (names_lev g M W Hfresh _ _ _ _ Hh Hp Hr) as Hl. pose proof Hl as (Hp0 & _). destruct (HI p pr Hp0 Hp) as (HI1 & HI2 & _ & _).
      destruct (lev_rule g M HR OK _ _ _ Hl) as [(f & Hf & H)|(Hin & H)]; destruct (rul_fun _ _ _ _ _ _ Hru H) as [En Eb]; rewrite Eb in Hm.
      + destruct (slots_ev (form_slots M s i f) (mk_slots _ OK s i f Hf) ts IH Hts Hm) as (ess & G1 & G2 & G3 & G4).
        exists [LOp s i f ess]. split; [eapply lm_op; eauto|]. split; [constructor; apply (lp_op M s i i); auto|]. split.
        { cbn [postorder]. rewrite app_length. cbn [length hole_rules map lrules_used list_sum fold_right]. rewrite G3. lia. }
        intros us x HD ws Hw. inversion HD as [|? pr' ? ? ss Hp' D2]; subst. rewrite Hp in Hp'. injection Hp' as <-. destruct (G4 _ _ D2 _ Hw) as (xs & X1 & X0 & X2).
        exists (op s i f xs). split; [cbn [hname]; rewrite En; f_equal; eapply HI2; eauto|]. intros r. cbn [hval leval]. rewrite X2. reflexivity.
      + destruct ts as [|t1 [|t2 ts]]; try discriminate Hm. injection Hm as M1. inversion IH as [|? ? I1 _]; subst. inversion Hts as [|? ? O1 _]; subst.
        assert (Ho : ok s (S i)) by (destruct Hh; split; auto). destruct (I1 (HArg s (S i)) Ho O1 M1) as (es & G1 & G2 & G3 & G4). apply fills_arg in G2 as (e & -> & G2).
        exists [e]. split; [eapply lm_pass; eauto|]. split; [constructor; eapply proper_low; eauto|]. split.
        { cbn [postorder flat_map]. rewrite app_length. cbn [length]. rewrite app_nil_r, G3. cbn [hole_rules map list_sum fold_right]. remember (S i) as i' eqn:Ei. destruct G2 as [s i' j f es Hj _ _]. cbn [lrules_used]. lia. }
        intros us x HD ws Hw. inversion HD as [|? pr' ? ? ss Hp' D2]; subst. rewrite Hp in Hp'. injection Hp' as <-. inversion D2 as [|? u1 s1 ? us1 ss1 D1 D3]; subst. inversion D3; subst.
        rewrite app_nil_r in Hw. destruct (G4 _ _ D1 _ Hw) as (v & -> & X1). exists v. split; [cbn [hname]; rewrite En; f_equal; eapply HI1; eauto; apply Hh|exact X1].
    - pose proof (list_ok M OK n Hh) as Ho.
      destruct (names_lst g M W Hfresh' HR OK _ _ _ Hh Hp Hr) as [(Hp0 & _ & H)|(Hp0 & _ & H)]; destruct (rul_fun _ _ _ _ _ _ Hru H) as [En Eb]; rewrite Eb in Hm;
        destruct (HI p pr Hp0 Hp) as (_ & _ & HI3 & HI4).
      + destruct ts as [|t1 [|t2 ts]]; try discriminate Hm. injection Hm as M1. inversion IH as [|? ? I1 _]; subst. inversion Hts as [|? ? O1 _]; subst.
        destruct (I1 (HArg (ls_sort M n) 0) Ho O1 M1) as (es & G1 & G2 & G3 & G4). apply fills_arg in G2 as (e & -> & G2).
        exists [e]. split; [eapply lm_pass; eauto|]. split; [constructor; auto|]. split.
        { cbn [postorder flat_map]. rewrite app_length. cbn [length]. rewrite app_nil_r, G3. cbn [hole_rules map list_sum fold_right]. lia. }
        intros us x HD ws Hw. inversion HD as [|? pr' ? ? ss Hp' D2]; subst. rewrite Hp in Hp'. injection Hp' as <-. inversion D2 as [|? u1 s1 ? us1 ss1 D1 D3]; subst. inversion D3; subst.
        rewrite app_nil_r in Hw. destruct (G4 _ _ D1 _ Hw) as (v & -> & X1). exists (one n v). split; [cbn [hname]; rewrite En; f_equal; apply HI3; auto|].
        intros r. specialize (X1 r). cbn [hval] in *. rewrite X1. reflexivity.
      + destruct ts as [|t1 [|t2 [|t3 [|t4 ts]]]]; try discriminate Hm. injection Hm as M1 M2 M3. inversion IH as [|? ? I1 I2]; subst. inversion I2 as [|? ? _ I3]; subst. inversion I3 as [|? ? I4 _]; subst.
        inversion Hts as [|? ? O1 O2]; subst. inversion O2 as [|? ? _ O3]; subst. inversion O3 as [|? ? O4 _]; subst.
        destruct (I1 (HList n) Hh O1 M1) as (es & G1 & G2 & G3 & G4). destruct (I4 (HArg (ls_sort M n) 0) Ho O4 M3) as (es' & K1 & K2 & K3 & K4). apply fills_arg in K2 as (e & -> & K2).
        apply root_leaf in M2; [|apply (mk_list _ OK n Hh)]. subst t2. exists (es ++ [e]). split; [eapply (lm_more g M p pr n); eauto; congruence|]. split; [constructor; auto|]. split.
        { cbn [postorder flat_map]. rewrite !app_length. cbn [length]. rewrite G3, K3. cbn [hole_rules map list_sum fold_right]. rewrite !map_app, list_sum_app. cbn [map list_sum fold_right]. lia. }
        intros us x HD ws Hw. inversion HD as [|? pr' ? ? ss Hp' D2]; subst. rewrite Hp in Hp'. injection Hp' as <-. inversion D2 as [|? u1 s1 ? us1 ss1 D1 D3]; subst.
        inversion D3 as [|? u2 s2 ? us2 ss2 D4 D5]; subst. inversion D4; subst. inversion D5 as [|? u3 s3 ? us3 ss3 D6 D7]; subst. inversion D7; subst. rewrite app_nil_r in Hw.
        apply Forall2_app_inv_l in Hw as (w1 & w2 & Hw1 & Hw2 & ->). cbn [app] in Hw2. inversion Hw2 as [|? w ? w3 Hw3 Hw4]; subst.
        destruct (G4 _ _ D1 _ Hw1) as (a & -> & X1). destruct (K4 _ _ D6 _ Hw4) as (b & -> & X2). exists (more n a w b). split; [cbn [hname]; rewrite En; f_equal; apply HI4; auto|].
        intros r. rewrite <- app_assoc. cbn [app]. specialize (X1 (w :: w3 ++ r)). specialize (X2 r). destruct es as [|e0 es]; [destruct X1|]. cbn [app hval] in *.
        destruct (ev e0 _) as [v0 ws']. rewrite map_app. cbn [map]. rewrite elems_app, X1. cbn [elems]. rewrite X2. reflexivity.
  Qed.
  Lemma tree_ev tr s i : ok s i -> tree_ok g tr -> root g tr = Some (SNon (E s i)) ->
    exists e, lmeans g M tr [e] /\ lproper M s i e /\ length (postorder tr) = lrules_used M e i /\
      forall us x, Denotes V g code tr us x -> forall ws, Forall2 text_of us ws -> exists v, x = SymNon (E s i) v /\ forall r, ev e (ws ++ r) = (v, r).
  Proof using W HR OK Hfresh Hfresh' HI.
    intros Ho Ht Hr. destruct (tree_ev' tr (HArg s i) Ho Ht Hr) as (es & H1 & H2 & H3 & H4). apply fills_arg in H2 as (e & -> & H2). exists e. split; auto. split; auto. split; auto.
    rewrite H3. cbn [hole_rules map list_sum fold_right]. lia.
  Qed.
End Eval.
