(** Proofs for C85: the value of a parse tree is the value of its expression. *)
From Verif Require Import Base Text Lex Grammar GrammarSpec GrammarProofs First Item ItemSpec ItemProofs Table TableSpec Parse ParseSpec TreeFacts IsoSpec Iso
  TsUtil TsLex TsParse TsParseSpec LayerProofs MixSpec MixProofs MixEvalSpec.

(** The text of a token; what a symbol stands for. *)
Inductive text_of : ts_tok -> list N -> Prop := to_lit n w : text_of (TTok n (Some (TLit w))) w.
Inductive arg_of {V} : symbol V -> arg V -> Prop :=
| ao_tok u w q : text_of u w -> arg_of (SymTok u q) (AText w)
| ao_non n v : arg_of (SymNon n v) (AVal v).
(** The code of the rules computes what the operators do; that of the rules without terminals gives the value it gets. *)
Definition interprets (V : Type) (g : grammar) (M : mix) (code : N -> list (symbol V) -> V) (op : nat -> nat -> form -> list (arg V) -> V) : Prop :=
  forall p pr, p <> 0 -> nth_error (g_prods g) p = Some pr ->
  (forall A B v, p_syms pr = [SNon A] -> code (N.of_nat p) [SymNon B v] = v) /\
  (forall s i f ss xs, is_form M s i f -> p_name pr = mx_name M s i -> p_syms pr = map (slot_sym M) (form_slots M s i f) ->
     Forall2 arg_of ss xs -> Forall2 arg_for (form_slots M s i f) xs -> code (N.of_nat p) ss = op s i f xs).

Section Eval.
  Variable g : grammar.
  Variable M : mix.
  Notation E := (mx_name M).
  Notation top := (mx_top M).
  Hypothesis W : wf_grammar g (E 0 0).
  Hypothesis Hfresh : forall s i, s < mx_sorts M -> i <= top s -> aug_name (E 0 0) <> E s i.
  Hypothesis HR : forall p pr, nth_error (g_prods g) p = Some pr -> p <> 0 -> mrule M (p_name pr) (p_syms pr).
  Hypothesis OK : mix_ok M.
  Variable V : Type.
  Variable code : N -> list (symbol V) -> V.
  Variable op : nat -> nat -> form -> list (arg V) -> V.
  Hypothesis HI : interprets V g M code op.
  Notation sy := (map (slot_sym M)).
  Notation ev := (meval V M op).
  Notation ok := (MixProofs.ok M).

  Definition value (tr : tree) (e : mexp) (s i : nat) : Prop :=
    forall us x, Denotes V g code tr us x -> forall ws, Forall2 text_of us ws -> exists v, x = SymNon (E s i) v /\ forall r, ev e (ws ++ r) = (v, r).
  Definition ev_tree (tr : tree) : Prop := forall s i, ok s i -> tree_ok g tr -> root g tr = Some (SNon (E s i)) ->
    exists e, mmeans g M tr e /\ mproper M s i e /\ length (postorder tr) = rules_used M e i /\ value tr e s i.

  Lemma slots_ev l : (forall x, In x l -> match x with Tok t => terminal t | Arg s' i' => s' < mx_sorts M /\ i' <= top s' end) ->
    forall ts, Forall ev_tree ts -> Forall (tree_ok g) ts -> map (root g) ts = map Some (sy l) ->
    exists es, Forall2 (mmeans g M) (nodes ts) es /\ Forall2 (fun h e => mproper M (fst h) (snd h) e) (holes l) es /\
      length (flat_map postorder ts) = list_sum (map (fun x => fst x (snd (snd x))) (combine (map (rules_used M) es) (holes l))) /\
      forall us ss, DenotesAll V g code ts us ss -> forall ws, Forall2 text_of us ws -> exists xs, Forall2 arg_of ss xs /\ Forall2 arg_for l xs /\ forall r, args V l (map ev es) (ws ++ r) = (xs, r).
  Proof.
    induction l as [|x l IH]; intros Hl [|t ts] HE HO Hm; try discriminate Hm.
    { exists []. split; [constructor|]. split; [constructor|]. split; [reflexivity|]. intros us ss HD ws Hw. inversion HD; subst. inversion Hw; subst. exists []. split; [constructor|]. split; [constructor|reflexivity]. }
    cbn [map] in Hm. injection Hm as Hr Hm. inversion HE as [|? ? I1 I2]; subst. inversion HO as [|? ? O1 O2]; subst.
    destruct (IH (fun y Hy => Hl y (or_intror Hy)) ts I2 O2 Hm) as (es & G1 & G2 & G3 & G4). pose proof (Hl x (or_introl eq_refl)) as Hx. destruct x as [y|s i]; cbn [slot_sym] in Hr.
    - apply root_leaf in Hr; auto. subst t. exists es. split; [exact G1|]. split; [exact G2|]. split; [exact G3|].
      intros us ss HD ws Hw. inversion HD as [|? u1 s1 ? us1 ss1 D1 D2]; subst. inversion D1; subst. cbn [app] in Hw. inversion Hw as [|? w ? ws' Hw1 Hw2]; subst.
      destruct (G4 _ _ D2 _ Hw2) as (xs & X1 & X0 & X2). exists (AText w :: xs). split; [constructor; auto; constructor; auto|]. split; [constructor; auto; exact I|]. intros r. cbn [args app]. rewrite X2. reflexivity.
    - destruct (I1 s i Hx O1 Hr) as (e & M1 & M2 & M3 & M4). destruct (root_node _ _ _ Hr O1) as (q & us & ->). exists (e :: es).
      split; [cbn; constructor; auto|]. split; [cbn; constructor; auto|]. split.
      { cbn [flat_map]. rewrite app_length, M3, G3. reflexivity. }
      intros us' ss HD ws Hw. inversion HD as [|? u1 s1 ? us1 ss1 D1 D2]; subst. apply Forall2_app_inv_l in Hw as (w1 & w2 & Hw1 & Hw2 & ->).
      destruct (M4 _ _ D1 _ Hw1) as (v & -> & X1). destruct (G4 _ _ D2 _ Hw2) as (xs & X2 & X0 & X3). exists (AVal v :: xs). split; [constructor; auto; constructor|]. split; [constructor; auto; exact I|].
      intros r. cbn [args map]. rewrite <- app_assoc, X1, X3. reflexivity.
  Qed.
  Lemma tree_ev tr : ev_tree tr.
  Proof using W HR OK Hfresh HI.
    induction tr as [y|p ts IH] using tree_ind'; intros s i Hi Ho Hr.
    { cbn [root] in Hr. injection Hr as ->. apply tree_ok_leaf in Ho. destruct (Ho _ eq_refl). }
    apply tree_ok_node in Ho as (pr & Hp & Hts & Hm). cbn [root] in Hr. rewrite Hp in Hr. injection Hr as Hr.
    pose proof (names_lev g M W Hfresh _ _ _ _ Hi Hp Hr) as Hl. pose proof Hl as (Hp0 & _). assert (Hru : rul g p (p_name pr) (p_syms pr)) by (exists pr; auto).
    destruct (HI p pr Hp0 Hp) as [HI1 HI2].
    destruct (lev_rule g M HR OK _ _ _ Hl) as [(f & Hf & H)|(Hin & H)]; destruct (rul_fun _ _ _ _ _ _ Hru H) as [En Eb]; rewrite Eb in Hm.
    - destruct (slots_ev (form_slots M s i f) (mk_slots _ OK s i f Hf) ts IH Hts Hm) as (es & G1 & G2 & G3 & G4).
      exists (MOp s i f es). split; [eapply mm_op; eauto|]. split; [apply (mp_op M s i i); auto|]. split.
      { cbn [postorder]. rewrite app_length. cbn [length rules_used]. rewrite G3. lia. }
      intros us x HD ws Hw. inversion HD as [|? pr' ? ? ss Hp' D2]; subst. rewrite Hp in Hp'. injection Hp' as <-. destruct (G4 _ _ D2 _ Hw) as (xs & X1 & X0 & X2).
      exists (op s i f xs). split; [rewrite En; f_equal; eapply HI2; eauto|]. intros r. cbn [meval]. rewrite X2. reflexivity.
    - destruct ts as [|t1 [|t2 ts]]; try discriminate Hm. injection Hm as M1. inversion IH as [|? ? I1 _]; subst. inversion Hts as [|? ? O1 _]; subst.
      assert (Ho : ok s (S i)) by (destruct Hi; split; auto). destruct (I1 s (S i) Ho O1 M1) as (e & G1 & G2 & G3 & G4).
      exists e. split; [eapply mm_pass; eauto|]. split; [eapply proper_low; eauto|]. split.
      { cbn [postorder flat_map]. rewrite app_length. cbn [length]. rewrite app_nil_r, G3. remember (S i) as i' eqn:Ei. destruct G2 as [s i' j f es Hj _ _]. cbn [rules_used]. lia. }
      intros us x HD ws Hw. inversion HD as [|? pr' ? ? ss Hp' D2]; subst. rewrite Hp in Hp'. injection Hp' as <-. inversion D2 as [|? u1 s1 ? us1 ss1 D1 D3]; subst. inversion D3; subst.
      rewrite app_nil_r in Hw. destruct (G4 _ _ D1 _ Hw) as (v & -> & X1). exists v. split; [rewrite En; f_equal; eapply HI1; eauto|exact X1].
  Qed.
End Eval.
