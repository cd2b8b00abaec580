(** The type-level parser follows the Rust parser step by step, up to its depth limit. *)
From Coq Require Import Ascii String.
From Verif Require Import Base Text Grammar GrammarSpec GrammarProofs First Item ItemSpec ItemProofs Table TableProofs TableFacts Parse ParseSpec TreeFacts Auto ParseProofs ParseTerm
  TsText TsModule ParseGenSpec ParseGenEmit TsUtil PropsTsUtil TsLex TsParse TsParseSpec.
Local Open Scope list_scope.

(** ** Lookups *)
Lemma getn_in {A} k (l : list (N * A)) v : NoDup (map fst l) -> (getn k l = Some v <-> In (k, v) l).
Proof.
  induction l as [|[k' v'] l IH]; intros Hn; [split; [discriminate|intros []]|]. inversion Hn as [|? ? Hni Hnd]; subst.
  unfold getn in *. cbn [find fst]. destruct (N.eqb_spec k' k) as [->|Hne].
  - cbn. split; [intros H; left; congruence|]. intros [H|H]; [congruence|]. exfalso. apply Hni. apply in_map_iff. exists (k, v). auto.
  - rewrite (IH Hnd). split; [intros H; right; auto|]. intros [H|H]; [congruence|auto].
Qed.
Lemma gets_in {A} k (l : list (list N * A)) v : NoDup (map fst l) -> (gets k l = Some v <-> In (k, v) l).
Proof.
  induction l as [|[k' v'] l IH]; intros Hn; [split; [discriminate|intros []]|]. inversion Hn as [|? ? Hni Hnd]; subst.
  unfold gets in *. cbn [find fst]. destruct (eqb k' k) eqn:E.
  - apply eqb_eq in E as ->. cbn. split; [intros H; left; congruence|]. intros [H|H]; [congruence|]. exfalso. apply Hni. apply in_map_iff. exists (k, v). auto.
  - rewrite (IH Hnd). split; [intros H; right; auto|]. intros [H|H]; [|auto]. injection H as -> ->. rewrite eqb_refl in E. discriminate.
Qed.

(** Below the length the comparison never says no. *)
Lemma gt_lit_lt size : forall b a, a < b -> GtLit size (Some a) b <> Some true.
Proof.
  induction b as [|b IH]; intros a Hlt; [lia|]. cbn [GtLit]. destruct a as [|a]; [discriminate|].
  destruct (Nat.leb_spec (S b) size); [|discriminate]. unfold Pred. destruct (Nat.leb_spec (S a) size); [|lia]. apply IH. lia.
Qed.
Lemma lt_true size a b : a < b -> may_be_true (Lt size (Some a) (Some b)) = true.
Proof.
  intros Hlt. unfold Lt, extends, GtImpl. destruct (Nat.eqb_spec a b); [lia|]. pose proof (gt_lit_lt size b a Hlt) as H.
  destruct (GtLit size (Some a) b) as [[]|]; cbn; congruence.
Qed.

Lemma forall2_at {A B} (R : A -> B -> Prop) l l' : Forall2 R l l' -> forall i b, nth_error l' i = Some b -> exists a, nth_error l i = Some a /\ R a b.
Proof. induction 1 as [|a b' l l' H _ IH]; intros [|i] b E; cbn in *; try discriminate; [|auto]. injection E as <-. eauto. Qed.

Lemma app_inj_len {A} (a b c d : list A) : a ++ b = c ++ d -> length a = length c -> a = c /\ b = d.
Proof.
  revert c. induction a as [|x a IH]; intros [|y c] E Hl; cbn in *; try discriminate; [auto|]. injection E as -> E. destruct (IH c E) as [-> ->]; [lia|auto].
Qed.

(** ** Denotations of stacks *)
Section Den.
  Variable V : Type.
  Variable g : grammar.
  Variable code : N -> list (symbol V) -> V.
  Notation DA := (DenotesAll V g code).
  Lemma den_app ts us ss ts' us' ss' : DA ts us ss -> DA ts' us' ss' -> DA (ts ++ ts') (us ++ us') (ss ++ ss').
  Proof. induction 1; intros H'; [exact H'|]. cbn [app]. rewrite <- app_assoc. constructor; auto. Qed.
  Lemma den_split ts ts' us ss : DA (ts ++ ts') us ss -> exists u1 u2 s1 s2, us = u1 ++ u2 /\ ss = s1 ++ s2 /\ DA ts u1 s1 /\ DA ts' u2 s2.
  Proof.
    revert us ss. induction ts as [|tr ts IH]; intros us ss H.
    - exists [], us, [], ss. repeat split; auto. constructor.
    - cbn [app] in H. inversion H as [|tr0 u s ts0 us1 ss1 Hd0 Hd]; subst. destruct (IH _ _ Hd) as (u1 & u2 & s1 & s2 & -> & -> & H1 & H2).
      exists (u ++ u1), u2, (s :: s1), s2. rewrite app_assoc. repeat split; auto. constructor; auto.
  Qed.
  Lemma den_length ts us ss : DA ts us ss -> length ss = length ts.
  Proof. induction 1; cbn; auto. Qed.
End Den.

Section Sim.
  Variables (ast : list aprod) (g : grammar) (start : str) (t : tables) (P : parse_tables).
  Hypothesis Hg : grammar_from_ast ast = Ok g.
  Hypothesis W : wf_grammar g start.
  Hypothesis Hst : g_start g = aug_name start.
  Hypothesis A : auto g t.
  Hypothesis Heof : eof_free g.
  Hypothesis Hf : start_fresh g.
  Hypothesis TG : tables_of_grammar g t P.
  Hypothesis N1 : NoDup (map fst (pt_prods P)).
  Hypothesis N2 : NoDup (map fst (pt_action P)).
  Hypothesis N3 : forall s row, In (s, row) (pt_action P) -> NoDup (map fst row).
  Hypothesis N4 : NoDup (map fst (pt_goto P)).
  Hypothesis N5 : forall s row, In (s, row) (pt_goto P) -> NoDup (map fst row).
  Hypothesis N6 : NoDup (map fst (pt_kinds P)).

  Lemma same_fun a b b' : same_action a b -> same_action a b' -> b = b'.
  Proof. destruct a, b, b'; cbn; intros; subst; try tauto; reflexivity. Qed.

  Lemma action_same i j : match tbl_get (t_action t) i j with
    | Some a => exists b, GetAction P (N.of_nat i) (N.of_nat j) = Some b /\ same_action a b
    | None => GetAction P (N.of_nat i) (N.of_nat j) = None end.
  Proof using TG N2 N3.
    unfold GetAction. destruct (tbl_get (t_action t) i j) as [a|] eqn:E.
    - assert (exists b, same_action a b) as [b Hb].
      { destruct a as [q|p|]; [exists (TShift (N.of_nat q))|exists (TReduce (N.of_nat p))|exists TAccept]; cbn; auto. }
      exists b. split; auto. destruct (proj2 (tg_action _ _ _ TG (N.of_nat i) (N.of_nat j) b)) as (row & H1 & H2); [exists i, j, a; auto|].
      rewrite (proj2 (getn_in _ _ _ N2) H1). apply getn_in; auto. eapply N3; eauto.
    - destruct (getn (N.of_nat i) (pt_action P)) as [row|] eqn:E1; auto. apply getn_in in E1; auto.
      destruct (getn (N.of_nat j) row) as [b|] eqn:E2; auto. apply getn_in in E2; [|eapply N3; eauto].
      destruct (proj1 (tg_action _ _ _ TG (N.of_nat i) (N.of_nat j) b)) as (i' & j' & a & Ei & Ej & Ha & _); [eauto|].
      apply Nat2N.inj in Ei, Ej. subst. congruence.
  Qed.
  Lemma goto_same i n : GetGoto P (N.of_nat i) n = option_map N.of_nat (tbl_get (t_goto t) i n).
  Proof using TG N4 N5.
    unfold GetGoto. destruct (tbl_get (t_goto t) i n) as [j|] eqn:E; cbn.
    - destruct (proj2 (tg_goto _ _ _ TG (N.of_nat i) n (N.of_nat j))) as (row & H1 & H2); [exists i, j; auto|].
      rewrite (proj2 (getn_in _ _ _ N4) H1). apply gets_in; auto. eapply N5; eauto.
    - destruct (getn (N.of_nat i) (pt_goto P)) as [row|] eqn:E1; auto. apply getn_in in E1; auto.
      destruct (gets n row) as [b|] eqn:E2; auto. apply gets_in in E2; [|eapply N5; eauto].
      destruct (proj1 (tg_goto _ _ _ TG (N.of_nat i) n b)) as (i' & j' & Ei & Ej & Ha); [eauto|].
      apply Nat2N.inj in Ei. subst. congruence.
  Qed.
  Lemma prod_same p pr : get_production g p = Some pr -> exists l, getn (N.of_nat p) (pt_prods P) = Some (p_name pr, l) /\ length l = length (p_syms pr).
  Proof using TG N1 W.
    intros Hp. assert (exists l, Forall2 (fun x j => get_token g (N.to_nat j) = Some x) (p_syms pr) l) as [l Hl].
    { assert (Hin : forall x, In x (p_syms pr) -> exists k, get_token g k = Some x).
      { intros x Hx. assert (Hi : In x (g_tokens g)) by (eapply token_of_body; eauto; eapply nth_error_In, Hp).
        apply In_nth_error in Hi. exact Hi. }
      clear - Hin. induction (p_syms pr) as [|x l IH]; [exists []; constructor|]. destruct IH as [l' Hl']; [intros; apply Hin; right; auto|].
      destruct (Hin x) as [k Hk]; [left; auto|]. exists (N.of_nat k :: l'). constructor; auto. rewrite Nat2N.id. exact Hk. }
    exists l. split; [|symmetry; eapply Forall2_len; eauto]. apply getn_in; auto. apply (tg_prods _ _ _ TG). exists p, pr. auto.
  Qed.

  (** ** The relation *)
  Variable V : Type.
  Variable size : nat.
  Variable code : N -> list (symbol V) -> V.
  Variable has_type : list N -> V -> bool.
  Variable regex_holds : option tstr -> bool.
  Hypothesis Hsize : 50 <= size.
  Variables (us : list ts_tok) (tokens w : list nat).
  Hypothesis Hus : Forall2 (is_token g) us tokens.
  Hypothesis Hend : ended tokens w.

  Let emit := EmitProduction V size ast code has_type regex_holds.
  Let input := map N.of_nat tokens.

  Definition typed (s : symbol V) : Prop := match s with SymNon k v => has_type k v = true | SymTok u _ => In u us end.

  Lemma indices_ok us' tokens' ret : Forall2 (is_token g) us' tokens' -> TokenIndicesImpl P us' ret = IxNums (rev (map N.of_nat tokens') ++ ret).
  Proof using TG N6.
    intros H. revert ret. induction H as [|u k us' tokens' (x & n & v & Hx & Hk & ->) _ IH]; intros ret; [reflexivity|]. cbn [TokenIndicesImpl].
    rewrite (proj2 (gets_in n (pt_kinds P) (N.of_nat k) N6)); [|apply (tg_kinds _ _ _ TG); eauto]. rewrite IH. cbn [map rev]. rewrite <- app_assoc. reflexivity.
  Qed.
  Lemma parse_starts a tl : tokens = a :: tl -> Parse V size P emit us = ParseImpl V size P emit 50 us input [0%N] 0 (N.of_nat a) [].
  Proof using TG N6 Hus.
    intros E. unfold Parse, TokenIndices. rewrite (indices_ok us tokens [] Hus), app_nil_r, reverse_rev, rev_involutive.
    unfold input. rewrite E. cbn [map]. reflexivity.
  Qed.

  (** The configurations match after [n] steps. *)
  Record rel (n : nat) (c : pstate) (ts : list tree) (stack : list N) (syms : list (symbol V)) : Prop := Rel {
    r_inv : inv g t tokens w c ts;
    r_stack : stack = map N.of_nat (ps_stack c);
    r_den : DenotesAll V g code (rev ts) (firstn (ps_i c) us) (rev syms);
    r_typed : Forall typed syms;
    r_steps : n = ps_i c + length (ps_trace c);
    r_small : length ts <= n }.

  Lemma us_at i k : nth_error tokens i = Some k -> exists u, nth_error us i = Some u /\ is_token g u k.
  Proof using Hus.
    apply (forall2_at _ _ _ Hus).
  Qed.

  Lemma emit_prod p pr : 1 <= p -> get_production g p = Some pr -> exists body,
    (exists b, nth_error (rules ast) (p - 1) = Some (p_name pr, b) /\ body = ab_syms b) /\ map lower body = p_syms pr /\
    forall syms, emit (N.of_nat p) syms =
      match PopNStackWithValue size syms (length (p_syms pr)) with
      | None => None
      | Some (rest, popped) => if all_hold V has_type regex_holds body popped && has_type (p_name pr) (code (N.of_nat p) popped)
          then Some (SymNon (p_name pr) (code (N.of_nat p) popped) :: rest) else None
      end.
  Proof using Hg Hsize.
    intros H1 Hp. pose proof (rules_prods _ _ Hg) as RP. destruct (grammar_from_ast_ok _ _ Hg) as (st0 & _ & _ & _ & Ep).
    unfold get_production in Hp. rewrite Ep in Hp, RP. cbn [tl] in RP. destruct p as [|p]; [lia|]. cbn [nth_error] in Hp.
    assert (exists nb, nth_error (rules ast) p = Some nb /\ p_name pr = fst nb /\ p_syms pr = map lower (ab_syms (snd nb))) as (nb & Hb & En & Es).
    { clear Ep. revert p Hp H1. induction RP as [|nb pr' l l' (E1 & E2 & E3) _ IH]; intros [|p] Hp H1; cbn in *; try discriminate; [|apply IH; auto; lia].
      injection Hp as ->. eauto. }
    exists (ab_syms (snd nb)). replace (S p - 1) with p by lia. split; [exists (snd nb); split; auto; rewrite Hb, En; destruct nb; reflexivity|]. split; [congruence|].
    intros syms. unfold emit, EmitProduction. rewrite Nat2N.id.
    assert (Eb : flat_map (fun p0 => map (fun b => (ap_name p0, ab_syms b)) (ap_bodies p0)) ast = map (fun nb => (fst nb, ab_syms (snd nb))) (rules ast)).
    { unfold rules. clear. induction ast as [|q l IH]; [reflexivity|]. cbn [flat_map]. rewrite map_app, IH, map_map. reflexivity. }
    rewrite Eb, (map_nth_error _ _ _ Hb), En, Es, map_length. reflexivity.
  Qed.

  (** The conditions of an action hold of what is on the stack. *)
  Definition conditions : Prop := literals_carried ast us /\ regexes_pass regex_holds ast us /\ well_typed code has_type regex_holds ast.
  Lemma holds_all : literals_carried ast us -> regexes_pass regex_holds ast us ->
    forall body, (forall x, In x body -> exists p b, In p ast /\ In b (ap_bodies p) /\ In x (ab_syms b)) ->
    forall ts us' ss, DenotesAll V g code ts us' ss -> Forall typed ss -> map (root g) ts = map Some (map lower body) ->
    all_hold V has_type regex_holds body ss = true.
  Proof.
    intros HL HR. induction body as [|x body IH]; intros Hb ts us' ss HD HT Hm.
    - destruct ts; [|discriminate]. inversion HD; subst. reflexivity.
    - destruct ts as [|tr ts]; [discriminate|]. cbn [map] in Hm. injection Hm as Hr Hm.
      inversion HD as [|? u s ? us1 ss1 H1 H2]; subst. inversion HT; subst. cbn [all_hold].
      rewrite (IH (fun y Hy => Hb y (or_intror Hy)) _ _ _ H2) by auto. rewrite andb_true_r.
      destruct (Hb x (or_introl eq_refl)) as (p0 & b0 & Hp0 & Hb0 & Hx0).
      destruct x as [s0|[n0|] y| | | |]; cbn [symbol_holds]; auto. destruct y as [l| |nt|r| |]; auto; cbn [lower] in Hr.
      + inversion H1 as [x n v q Hk|p pr ts0 us2 ss2 Hp Hd]; subst; cbn [root] in Hr; [|rewrite Hp in Hr; discriminate].
        injection Hr as ->. cbn [token_kind] in Hk. rewrite Hk. cbn [typed] in *. rewrite (HL l n v); auto; [apply eqb_refl|]. do 3 eexists; eauto.
      + inversion H1 as [x n v q Hk|p pr ts0 us2 ss2 Hp Hd]; subst; cbn [root] in Hr; [injection Hr as ->; destruct Hk|].
        rewrite Hp in Hr. injection Hr as <-. cbn [typed] in *. rewrite eqb_refl. auto.
      + inversion H1 as [x n v q Hk|p pr ts0 us2 ss2 Hp Hd]; subst; cbn [root] in Hr; [|rewrite Hp in Hr; discriminate].
        injection Hr as ->. cbn [token_kind] in Hk. cbn [typed] in *. apply (HR r n v); auto. do 3 eexists; eauto.
  Qed.

  Lemma pop_states {X} (l : list X) n : n <= size -> n <= length l -> PopNStack size l n = Some (skipn n l).
  Proof. intros H1 H2. destruct (C44_lists size X l) as [_ H]. destruct (H n H1) as [-> _]. destruct (Nat.leb_spec n (length l)); [reflexivity|lia]. Qed.
  Lemma pop_symbols {X} (l : list X) n : n <= size -> n <= length l -> PopNStackWithValue size l n = Some (skipn n l, rev (firstn n l)).
  Proof. intros H1 H2. destruct (C44_lists size X l) as [_ H]. destruct (H n H1) as [_ ->]. destruct (Nat.leb_spec n (length l)); [reflexivity|lia]. Qed.

  Definition impl (d : nat) (stack : list N) (c : pstate) (syms : list (symbol V)) : parse_out V :=
    ParseImpl V size P emit d us input stack (ps_i c) (N.of_nat (ps_a c)) syms.

  Lemma sim_shift n c ts stack syms d q s j : rel n c ts stack syms -> n + S d <= 50 -> ps_stack c = q :: s ->
    tbl_get (t_action t) q (ps_a c) = Some (Shift j) ->
    exists c' ts' stack' syms', parse_step g t tokens c = inl c' /\ rel (S n) c' ts' stack' syms' /\ impl (S d) stack c syms = impl d stack' c' syms'.
  Proof using W A Heof TG N2 N3 Hus Hend Hsize.
    intros R Hn Es Ea. pose proof (action_same q (ps_a c)) as Hact. rewrite Ea in Hact. destruct Hact as (b & Eb & Sb).
    destruct b as [j'| |]; [|exfalso; exact Sb..]. cbn [same_action] in Sb.
    pose proof (r_inv _ _ _ _ _ R) as HI. pose proof (proj1 (proj2 (proj2 (proj2 HI)))) as Hcur.
    pose proof Ea as Ea'. apply (a_shift _ _ A) in Ea' as (x & H1 & H2 & H3 & H4).
    destruct (inv_shift g start W t tokens w Hend Heof q s x j ts c HI Es H1 H2 H3 H4) as [HI' Hlt].
    destruct (ParseProofs.next_tok tokens w Hend _ Hlt) as [a' Ha'].
    destruct (us_at _ _ Hcur) as (u & Hu & (x' & kind & v & Hx' & Hkind & ->)).
    assert (x' = x) by (destruct H2 as [H2 _]; unfold get_token in Hx'; congruence). subst x'.
    assert (Ha0 : snd (next_token tokens (ps_i c) (ps_a c)) = a') by (unfold next_token; rewrite Ha'; reflexivity). rewrite Ha0 in HI'.
    exists (PState (j :: q :: s) (S (ps_i c)) a' (ps_trace c)), (Leaf x :: ts), (N.of_nat j :: stack), (SymTok (TTok kind v) (N.of_nat j) :: syms).
    split; [|split].
    - unfold parse_step. rewrite Es, Ea. unfold next_token. rewrite Ha'. reflexivity.
    - constructor; cbn [ps_stack ps_i ps_trace ps_a]; auto.
      + rewrite (r_stack _ _ _ _ _ R), Es. reflexivity.
      + cbn [rev]. rewrite (firstn_snoc _ _ _ Hu). apply den_app; [apply (r_den _ _ _ _ _ R)|].
        change [TTok kind v] with ([TTok kind v] ++ []). constructor; [constructor; exact Hkind|constructor].
      + constructor; [|apply (r_typed _ _ _ _ _ R)]. cbn [typed]. eapply nth_error_In, Hu.
      + rewrite (r_steps _ _ _ _ _ R). lia.
      + pose proof (r_small _ _ _ _ _ R). cbn [length]. lia.
    - unfold impl. cbn [ParseImpl]. rewrite (r_stack _ _ _ _ _ R), Es. cbn [map]. rewrite Eb. subst j'.
      pose proof (r_steps _ _ _ _ _ R) as Hsteps. unfold NextToken, Succ. destruct (Nat.ltb_spec (ps_i c) size); [|lia].
      rewrite lt_true; [|unfold input; rewrite map_length; apply nth_error_lt in Ha'; exact Ha'].
      unfold input. rewrite (map_nth_error _ _ _ Ha'). fold input. rewrite Hu.
      destruct (Nat.leb_spec (S d) size); [reflexivity|lia].
  Qed.

  (** The check of rule [p] fails on the topmost symbols. *)
  Definition check_fails (p : nat) (syms : list (symbol V)) : Prop :=
    exists pr b, 1 <= p /\ nth_error (g_prods g) p = Some pr /\ nth_error (rules ast) (p - 1) = Some (p_name pr, b) /\
      all_hold V has_type regex_holds (ab_syms b) (rev (firstn (length (p_syms pr)) syms)) &&
      has_type (p_name pr) (code (N.of_nat p) (rev (firstn (length (p_syms pr)) syms))) = false.
  Lemma sim_reduce n c ts stack syms d q s p : rel n c ts stack syms -> n + S d <= 50 -> ps_stack c = q :: s ->
    tbl_get (t_action t) q (ps_a c) = Some (Reduce p) ->
    (parse_step g t tokens c = inr (Panic PGotoEmpty) /\ impl (S d) stack c syms = PNoGoto) \/
    exists c', parse_step g t tokens c = inl c' /\
      ((exists ts' stack' syms', rel (S n) c' ts' stack' syms' /\ impl (S d) stack c syms = impl d stack' c' syms') \/
       (check_fails p syms /\ ~ conditions /\ impl (S d) stack c syms = PAction (N.of_nat q) (N.of_nat (ps_a c)) syms)).
  Proof using Hg W A Hf TG N1 N2 N3 N4 N5 Hsize.
    intros R Hn Es Ea. pose proof (action_same q (ps_a c)) as Hact. rewrite Ea in Hact. destruct Hact as (b & Eb & Sb).
    destruct b as [|p'|]; [exfalso; exact Sb| |exfalso; exact Sb]. cbn [same_action] in Sb. subst p'.
    pose proof (r_inv _ _ _ _ _ R) as HI. pose proof (proj1 HI) as Hs. rewrite Es in Hs.
    pose proof Ea as Ea'. apply (a_reduce _ _ A) in Ea' as (Hne & dd & (pr & Hp & ->) & Hk).
    destruct (back g t A _ _ _ _ _ _ Hs Hk) as (pr' & q' & s' & k' & Hp' & Hl & E & Hs' & Hm & Hk'). rewrite Hp in Hp'. injection Hp' as <-.
    rewrite firstn_all in Hm. pose proof (stacked_length g t _ _ Hs) as Hlen.
    assert (Hp1 : 1 <= p).
    { destruct p as [|p]; [|lia]. exfalso. apply Hne. split; auto. eapply (a_start_la _ _ A); eauto. }
    destruct (emit_prod p pr Hp1 Hp) as (body & Hbody & Hlow & Hemit).
    destruct (prod_same p pr Hp) as (l & El & Hll).
    pose proof (r_small _ _ _ _ _ R) as Hsm. pose proof (r_den _ _ _ _ _ R) as HD.
    pose proof (den_length _ _ _ _ _ _ HD) as Hsl. rewrite !rev_length in Hsl.
    set (m := length (p_syms pr)) in *.
    assert (Erev : forall {B} (l0 : list B), rev l0 = rev (skipn m l0) ++ rev (firstn m l0)) by (intros B l0; rewrite <- rev_app_distr, firstn_skipn; reflexivity).
    assert (EX : impl (S d) stack c syms =
      match tbl_get (t_goto t) q' (p_name pr) with
      | None => PNoGoto
      | Some j => match emit (N.of_nat p) syms with
          | Some syms' => ParseImpl V size P emit d us input (N.of_nat j :: map N.of_nat (q' :: s')) (ps_i c) (N.of_nat (ps_a c)) syms'
          | None => PAction (N.of_nat q) (N.of_nat (ps_a c)) syms end end).
    { unfold impl. cbn [ParseImpl]. rewrite (r_stack _ _ _ _ _ R), Es. cbn [map]. rewrite Eb, El, Hll. fold m.
      change (N.of_nat q :: map N.of_nat s) with (map N.of_nat (q :: s)).
      rewrite pop_states; [|lia|rewrite map_length, Hlen; lia]. rewrite skipn_map, E. cbn [map]. rewrite goto_same.
      destruct (tbl_get (t_goto t) q' (p_name pr)) as [j|]; cbn [option_map]; [|reflexivity].
      destruct (emit (N.of_nat p) syms); [|reflexivity]. destruct (Nat.leb_spec (S d) size); [reflexivity|lia]. }
    assert (EP : parse_step g t tokens c = match tbl_get (t_goto t) q' (p_name pr) with
      | None => inr (Panic PGotoEmpty) | Some j => inl (PState (j :: q' :: s') (ps_i c) (ps_a c) (ps_trace c ++ [p])) end).
    { unfold parse_step. rewrite Es, Ea. unfold get_production. rewrite Hp. fold m.
      destruct (Nat.ltb_spec (length (q :: s)) m); [lia|]. rewrite E. reflexivity. }
    destruct (tbl_get (t_goto t) q' (p_name pr)) as [j|] eqn:Eg; [right|left; auto].
    eexists. split; [exact EP|]. rewrite Hemit in EX. fold m in EX. rewrite pop_symbols in EX; [|lia|lia].
    rewrite (Erev _ ts), (Erev _ syms) in HD. apply den_split in HD as (u1 & u2 & s1 & s2 & Eu & Ess & HD1 & HD2).
    pose proof (den_length _ _ _ _ _ _ HD1) as Hl1. rewrite rev_length, skipn_length in Hl1.
    apply app_inj_len in Ess as [<- <-]; [|rewrite rev_length, skipn_length; lia].
    assert (HT : Forall typed (rev (firstn m syms)) /\ Forall typed (skipn m syms)).
    { pose proof (r_typed _ _ _ _ _ R) as HT. rewrite <- (firstn_skipn m syms) in HT. apply Forall_app in HT as [HT1 HT2]. split; auto. apply Forall_rev, HT1. }
    destruct HT as [HT1 HT2].
    destruct (all_hold V has_type regex_holds body (rev (firstn m syms)) && has_type (p_name pr) (code (N.of_nat p) (rev (firstn m syms)))) eqn:Eh.
    - left. exists (Node p (rev (firstn m ts)) :: skipn m ts), (N.of_nat j :: map N.of_nat (q' :: s')),
        (SymNon (p_name pr) (code (N.of_nat p) (rev (firstn m syms))) :: skipn m syms). split; [|exact EX].
      constructor; cbn [ps_stack ps_i ps_trace ps_a].
      + eapply inv_reduce; eauto. apply (a_goto _ _ A), Eg.
      + reflexivity.
      + cbn [rev]. rewrite Eu. apply den_app; auto. rewrite <- (app_nil_r u2). constructor; [|constructor]. constructor; auto.
      + constructor; auto. cbn [typed]. apply andb_true_iff in Eh. tauto.
      + rewrite app_length, (r_steps _ _ _ _ _ R). cbn [length]. lia.
      + cbn [length]. rewrite skipn_length. lia.
    - right. destruct Hbody as (b & Hb & ->). split; [exists pr, b; auto|]. split; auto. intros (HL & HR & HW).
      assert (HA : all_hold V has_type regex_holds (ab_syms b) (rev (firstn m syms)) = true).
      { eapply holds_all; eauto; [|rewrite Hlow; exact Hm]. intros x Hx. unfold rules in Hb. apply nth_error_In, in_flat_map in Hb as (p0 & Hp0 & Hb).
        apply in_map_iff in Hb as (b0 & Eb0 & Hb0). injection Eb0 as _ <-. eauto. }
      rewrite HA in Eh. cbn [andb] in Eh. specialize (HW _ _ _ _ Hb HA). replace (S (p - 1)) with p in HW by lia. congruence.
  Qed.

  Definition action_fails (X : parse_out V) : Prop := ~ conditions /\ exists q a l, X = PAction q a l.

  Lemma parse_impl_starts a tl : tokens = a :: tl -> Parse V size P emit us = impl 50 [0%N] (parse_init a) [].
  Proof using TG N6 Hus. apply parse_starts. Qed.
  Lemma impl_0 stack c syms : impl 0 stack c syms = PDepth.
  Proof. reflexivity. Qed.
  Opaque impl.
  Lemma sim_run d m : forall n c c' ts stack syms, nsteps (parse_step g t tokens) m c c' -> rel n c ts stack syms -> n + (m + d) <= 50 ->
    action_fails (impl (m + d) stack c syms) \/
    exists ts' stack' syms', rel (n + m) c' ts' stack' syms' /\ impl (m + d) stack c syms = impl d stack' c' syms'.
  Proof using Hg W A Heof Hf TG N1 N2 N3 N4 N5 Hsize Hus Hend.
    induction m as [|m IH]; intros n c c' ts stack syms Hs R Hn.
    - inversion Hs; subst. right. exists ts, stack, syms. rewrite Nat.add_0_r. auto.
    - inversion Hs as [|m' c0 c1 c2 E Hs']; subst. cbn [Nat.add] in *. replace (n + S m) with (S n + m) by lia.
      assert (HX : action_fails (impl (S (m + d)) stack c syms) \/ exists ts1 stack1 syms1, rel (S n) c1 ts1 stack1 syms1 /\
        impl (S (m + d)) stack c syms = impl (m + d) stack1 c1 syms1).
      { pose proof (proj1 (r_inv _ _ _ _ _ R)) as Hst0. destruct (ps_stack c) as [|q s] eqn:Es; [inversion Hst0|].
        destruct (tbl_get (t_action t) q (ps_a c)) as [[j|p|]|] eqn:Ea.
        - destruct (sim_shift n c ts stack syms (m + d) q s j R ltac:(lia) Es Ea) as (c1' & ts1 & st1 & sy1 & E1 & R1 & EX).
          rewrite E in E1. injection E1 as <-. right. eauto.
        - destruct (sim_reduce n c ts stack syms (m + d) q s p R ltac:(lia) Es Ea) as [[E1 _]|(c1' & E1 & [(ts1 & st1 & sy1 & R1 & EX)|(_ & Hc & EX)])].
          + rewrite E in E1. discriminate.
          + rewrite E in E1. injection E1 as <-. right. eauto.
          + left. split; eauto.
        - unfold parse_step in E. rewrite Es, Ea in E. discriminate.
        - unfold parse_step in E. rewrite Es, Ea in E. discriminate. }
      destruct HX as [HX|(ts1 & st1 & sy1 & R1 & EX)]; [auto|]. rewrite EX. apply (IH (S n) c1 c' ts1 st1 sy1); auto. lia.
  Qed.
  Transparent impl.

  Lemma rel_init a tl : tokens = a :: tl -> rel 0 (parse_init a) [] [0%N] [].
  Proof using Hend.
    intros E. constructor; cbn; auto; [|constructor].
    destruct (inv_init g t tokens w Hend) as (a' & tl' & E' & H). rewrite E in E'. injection E' as <- <-. exact H.
  Qed.

  (** ** The two parsers *)
  Notation matches := (agrees g code start us w).

  Lemma sim_end n c ts stack syms d r : rel n c ts stack syms -> n + S d <= 50 -> parse_step g t tokens c = inr r ->
    matches r (impl (S d) stack c syms).
  Proof using Hg W Hst A Hf TG N1 N2 N3 N4 N5 Hsize Hus Hend.
    intros R Hn E. pose proof (r_inv _ _ _ _ _ R) as HI. pose proof (proj1 HI) as Hst0. destruct (ps_stack c) as [|q s] eqn:Es; [inversion Hst0|].
    destruct (tbl_get (t_action t) q (ps_a c)) as [[j|p|]|] eqn:Ea.
    - unfold parse_step in E. rewrite Es, Ea in E. destruct (next_token _ _ _). discriminate.
    - destruct (sim_reduce n c ts stack syms d q s p R Hn Es Ea) as [[E1 EX]|(c1 & E1 & _)]; rewrite E in E1; [|discriminate].
      injection E1 as ->. cbn [agrees]. auto.
    - assert (Er : r = Ok (ps_trace c)) by (unfold parse_step in E; rewrite Es, Ea in E; congruence). subst r.
      pose proof Ea as Ea'. apply (a_accept _ _ A) in Ea' as (E0 & dd & Hc & Hk). pose proof Hk as Hk'. 
      destruct (inv_accept g start W Hst t A tokens w Hend c ts q s dd Hf HI Es E0 Hc Hk') as (tr & -> & HP & Etr).
      assert (Hi : ps_i c = length w).
      { destruct HI as (_ & _ & Hi & Ha & _). rewrite E0 in Ha. eapply at_end; eauto. }
      cbn [agrees]. pose proof (r_steps _ _ _ _ _ R) as Hst1. rewrite Hi in Hst1. destruct (Nat.ltb_spec (length w + length (ps_trace c)) 50); [|lia].
      pose proof (r_den _ _ _ _ _ R) as HD. rewrite Hi in HD. cbn [rev app] in HD.
      inversion HD as [|tr0 u0 s0 ts0 us0 ss0 Hd0 Hd1 E1 E2 E3]; subst. inversion Hd1; subst. rewrite app_nil_r in *.
      destruct HP as (Ho & Hr & Hy).
      assert (Es0 : syms = [s0]) by (rewrite <- (rev_involutive syms), <- E3; reflexivity).
      assert (exists v, s0 = SymNon start v) as [v ->].
      { inversion Hd0; subst; cbn [root] in Hr; [injection Hr as ->; destruct H0|]. rewrite H0 in Hr. injection Hr as <-. eauto. }
      exists tr, v. split; [|split; [split; auto|split; auto]].
      unfold impl. cbn [ParseImpl]. rewrite (r_stack _ _ _ _ _ R), Es. cbn [map].
      pose proof (action_same q (ps_a c)) as Hact. rewrite Ea in Hact. destruct Hact as (b & Eb & Sb).
      destruct b; try (exfalso; exact Sb). rewrite Eb, Es0. reflexivity.
    - assert (Er : r = Panic PInvalidToken) by (unfold parse_step in E; rewrite Es, Ea in E; congruence). subst r. cbn [agrees]. right. left. split; auto.
      unfold impl. cbn [ParseImpl]. rewrite (r_stack _ _ _ _ _ R), Es. cbn [map].
      pose proof (action_same q (ps_a c)) as Hact. rewrite Ea in Hact. rewrite Hact. eauto.
  Qed.

  Lemma sim_parse : eps_free g -> action_fails (Parse V size P emit us) \/ matches (parse_impl g t tokens) (Parse V size P emit us).
  Proof using Hg W Hst A Heof Hf TG N1 N2 N3 N4 N5 N6 Hsize Hus Hend.
    intros He. destruct (parse_ends g start W t A He tokens w Hend Heof) as (a & Ea & H).
    assert (exists tl, tokens = a :: tl) as [tl Et] by (destruct tokens; cbn in Ea; [discriminate|injection Ea as ->; eauto]).
    rewrite (parse_impl_starts a tl Et).
    pose proof (rel_init a tl Et) as R0. Opaque impl. remember (impl 50 [0%N] (parse_init a) []) as X eqn:HX.
    assert (Hdeep : forall n c, nsteps (parse_step g t tokens) n (parse_init a) c -> 50 <= n -> action_fails X \/ X = PDepth).
    { intros n c Hn Hle. replace n with (50 + (n - 50)) in Hn by lia. apply nsteps_split in Hn as (c1 & Hn & _).
      destruct (sim_run 0 50 0 _ _ _ _ _ Hn R0 ltac:(lia)) as [HF|(ts' & st' & sy' & R' & EX)]; [left; rewrite HX; exact HF|right].
      rewrite impl_0 in EX. rewrite HX. exact EX. }
    destruct H as [[E Hc]|(n & c & r & Hn & Er & E)].
    - destruct (cyclic_forever g t tokens w _ Hc 50) as [c Hn]. destruct (Hdeep 50 c Hn (le_n 50)) as [HF|HD]; [left; exact HF|].
      right. rewrite E, HD. reflexivity.
    - destruct (Nat.le_gt_cases 50 n) as [Hle|Hlt].
      + destruct (Hdeep n c Hn Hle) as [HF|HD]; [left; exact HF|]. right. rewrite E, HD. destruct r as [ps|p|]; cbn [agrees]; auto.
        (* the number of steps is known from the result *)
        assert (Hps : length w + length ps = n).
        { clear - Er Hn W Hst A Heof Hf Hend Et.
          assert (G : forall n c0 c, nsteps (parse_step g t tokens) n c0 c -> forall m, (exists ts, inv g t tokens w c0 ts) -> m = ps_i c0 + length (ps_trace c0) ->
            (exists ts, inv g t tokens w c ts) /\ m + n = ps_i c + length (ps_trace c)).
          { clear - W A Heof Hend. induction n as [|n IH]; intros c0 c Hs m Hi Hm; inversion Hs as [|? ? c1 ? E1 Hs1]; subst; [split; auto; lia|].
            destruct Hi as [ts Hi]. destruct (inv_step g start W t A tokens w Hend Heof c0 c1 ts Hi E1) as [ts1 Hi1].
            destruct (IH c1 c Hs1 (S (ps_i c0 + length (ps_trace c0)))) as [HA HB]; [eauto| |split; auto; lia].
            unfold parse_step in E1. destruct (ps_stack c0); [discriminate|]. destruct (tbl_get _ _ _) as [[]|]; try discriminate.
            - injection E1 as <-. reflexivity.
            - destruct (get_production g p) as [pr|]; [|discriminate]. destruct (_ <? _); [discriminate|]. destruct (skipn _ _); [discriminate|].
              destruct (tbl_get _ _ _); [|discriminate]. injection E1 as <-. cbn [ps_i ps_trace]. rewrite app_length. cbn [length]. lia. }
          destruct (inv_init g t tokens w Hend) as (a' & tl' & E' & H'). rewrite Et in E'. injection E' as <- <-.
          destruct (G n _ _ Hn 0) as ((ts & HI) & Hsum); [eauto|reflexivity|].
          pose proof (proj1 HI) as Hst0. unfold parse_step in Er. destruct (ps_stack c) as [|q s] eqn:Es; [discriminate|].
          destruct (tbl_get (t_action t) q (ps_a c)) as [[j|p|]|] eqn:Eact; try discriminate.
          - destruct (get_production g p) as [pr|]; [|discriminate]. destruct (_ <? _); [discriminate|]. destruct (skipn _ _); [discriminate|].
            destruct (tbl_get (t_goto t) n0 (p_name pr)); discriminate.
          - injection Er as <-. apply (a_accept _ _ A) in Eact as (E0 & _). destruct HI as (_ & _ & Hi & Ha & _). rewrite E0 in Ha.
            pose proof (at_end tokens w Hend _ Hi Ha). lia. }
        destruct (Nat.ltb_spec (length w + length ps) 50); [lia|reflexivity].
      + assert (exists d, 50 = n + S d) as [d Hd] by (exists (50 - S n); lia).
        assert (EX0 : X = impl (n + S d) [0%N] (parse_init a) []) by (rewrite HX, Hd; reflexivity).
        destruct (sim_run (S d) n 0 _ _ _ _ _ Hn R0 ltac:(lia)) as [HF|(ts' & st' & sy' & R' & EX)]; [left; rewrite EX0; exact HF|right].
        rewrite EX0, EX, E. eapply sim_end; eauto. cbn [Nat.add]. lia.
  Qed.
  Transparent impl.

  (** A rejection after [n] steps. *)
  Lemma sim_reject : forall a n c p, nth_error tokens 0 = Some a -> nsteps (parse_step g t tokens) n (parse_init a) c ->
    parse_step g t tokens c = inr (Panic p) ->
    action_fails (Parse V size P emit us) \/
    if n <? 50 then (p = PInvalidToken /\ exists l, Parse V size P emit us = PInvalid (N.of_nat (ps_a c)) l) \/ (p = PGotoEmpty /\ Parse V size P emit us = PNoGoto)
    else Parse V size P emit us = PDepth.
  Proof using Hg W Hst A Heof Hf TG N1 N2 N3 N4 N5 N6 Hsize Hus Hend.
    intros a n c p Ea Hn Er. assert (exists tl, tokens = a :: tl) as [tl Et] by (destruct tokens; cbn in Ea; [discriminate|injection Ea as ->; eauto]).
    rewrite (parse_impl_starts a tl Et).
    pose proof (rel_init a tl Et) as R0. Opaque impl. remember (impl 50 [0%N] (parse_init a) []) as X eqn:HX.
    destruct (Nat.ltb_spec n 50) as [Hlt|Hle].
    - assert (exists d, 50 = n + S d) as [d Hd] by (exists (50 - S n); lia).
      assert (EX0 : X = impl (n + S d) [0%N] (parse_init a) []) by (rewrite HX, Hd; reflexivity).
      destruct (sim_run (S d) n 0 _ _ _ _ _ Hn R0 ltac:(lia)) as [HF|(ts' & st' & sy' & R' & EX)]; [left; rewrite EX0; exact HF|right].
      rewrite EX0, EX. cbn [Nat.add] in R'. clear HX EX0 EX. Transparent impl.
      pose proof (r_inv _ _ _ _ _ R') as HI. pose proof (proj1 HI) as Hst0. destruct (ps_stack c) as [|q s] eqn:Es; [inversion Hst0|].
      destruct (tbl_get (t_action t) q (ps_a c)) as [[j|k|]|] eqn:Eact.
      + unfold parse_step in Er. rewrite Es, Eact in Er. destruct (next_token _ _ _). discriminate.
      + destruct (sim_reduce n c ts' st' sy' d q s k R' ltac:(lia) Es Eact) as [[E1 EX]|(c1 & E1 & _)]; rewrite Er in E1; [|discriminate].
        injection E1 as ->. right. auto.
      + unfold parse_step in Er. rewrite Es, Eact in Er. discriminate.
      + left. assert (p = PInvalidToken) by (unfold parse_step in Er; rewrite Es, Eact in Er; congruence). split; auto.
        unfold impl. cbn [ParseImpl]. rewrite (r_stack _ _ _ _ _ R'), Es. cbn [map].
        pose proof (action_same q (ps_a c)) as Hact. rewrite Eact in Hact. rewrite Hact. eauto.
    - replace n with (50 + (n - 50)) in Hn by lia. apply nsteps_split in Hn as (c1 & Hn & _). Opaque impl.
      destruct (sim_run 0 50 0 _ _ _ _ _ Hn R0 ltac:(lia)) as [HF|(ts' & st' & sy' & R' & EX)]; [left; rewrite HX; exact HF|right].
      rewrite impl_0 in EX. rewrite HX. exact EX.
  Qed.
  Transparent impl.

  (** ** What the result shows *)
  Inductive stops (X : parse_out V) (n d : nat) (c : pstate) : Prop :=
  | stop_depth c' : nsteps (parse_step g t tokens) d c c' -> X = PDepth -> stops X n d c
  | stop_at m c' ts syms r : m < d -> nsteps (parse_step g t tokens) m c c' -> rel (n + m) c' ts (map N.of_nat (ps_stack c')) syms ->
      parse_step g t tokens c' = inr r ->
      (r = Ok (ps_trace c') /\ X = PStack syms \/ r = Panic PInvalidToken /\ X = PInvalid (N.of_nat (ps_a c')) syms \/ r = Panic PGotoEmpty /\ X = PNoGoto) -> stops X n d c
  | stop_check m c' c2 ts syms q s p : m < d -> nsteps (parse_step g t tokens) m c c' -> rel (n + m) c' ts (map N.of_nat (ps_stack c')) syms ->
      ps_stack c' = q :: s -> parse_step g t tokens c' = inl c2 -> ps_trace c2 = ps_trace c' ++ [p] -> check_fails p syms ->
      X = PAction (N.of_nat q) (N.of_nat (ps_a c')) syms -> stops X n d c.
  Lemma stops_step X n d c c1 : parse_step g t tokens c = inl c1 -> stops X (S n) d c1 -> stops X n (S d) c.
  Proof.
    intros E [c' H1 H2|m c' ts syms r Hm Hs HR Er H|m c' c2 ts syms q s p Hm Hs HR Es E2 Et Hf0 HX].
    - eapply stop_depth; [econstructor; eauto|exact H2].
    - replace (S n + m) with (n + S m) in HR by lia. eapply (stop_at _ _ _ _ (S m)); eauto; [lia|econstructor; eauto].
    - replace (S n + m) with (n + S m) in HR by lia. eapply (stop_check _ _ _ _ (S m)); eauto; [lia|econstructor; eauto].
  Qed.
  Lemma sim_stops d : forall n c ts stack syms, rel n c ts stack syms -> n + d <= 50 -> stops (impl d stack c syms) n d c.
  Proof using Hg W A Heof Hf TG N1 N2 N3 N4 N5 Hsize Hus Hend.
    induction d as [|d IH]; intros n c ts stack syms R Hn.
    { eapply stop_depth; [constructor|reflexivity]. }
    pose proof (proj1 (r_inv _ _ _ _ _ R)) as Hst0. destruct (ps_stack c) as [|q s] eqn:Es; [inversion Hst0|].
    assert (R' : rel (n + 0) c ts (map N.of_nat (ps_stack c)) syms) by (rewrite Nat.add_0_r, <- (r_stack _ _ _ _ _ R); exact R).
    pose proof (action_same q (ps_a c)) as Hact.
    destruct (tbl_get (t_action t) q (ps_a c)) as [[j|p|]|] eqn:Ea.
    - destruct (sim_shift n c ts stack syms d q s j R ltac:(lia) Es Ea) as (c1 & ts1 & st1 & sy1 & E1 & R1 & EX).
      rewrite EX. eapply stops_step; [exact E1|]. eapply IH; eauto. lia.
    - destruct (sim_reduce n c ts stack syms d q s p R ltac:(lia) Es Ea) as [[E1 EX]|(c1 & E1 & [(ts1 & st1 & sy1 & R1 & EX)|(Hc & _ & EX)])].
      + rewrite EX. eapply (stop_at _ _ _ _ 0); eauto; [lia|constructor].
      + rewrite EX. eapply stops_step; [exact E1|]. eapply IH; eauto. lia.
      + rewrite EX. eapply (stop_check _ _ _ _ 0); eauto; [lia|constructor|].
        unfold parse_step in E1. rewrite Es, Ea in E1. destruct (get_production g p) as [pr|]; [|discriminate]. destruct (_ <? _); [discriminate|].
        destruct (skipn _ _); [discriminate|]. destruct (tbl_get (t_goto t) _ _); [|discriminate]. injection E1 as <-. reflexivity.
    - eapply (stop_at _ _ _ _ 0); eauto; [lia|constructor|unfold parse_step; rewrite Es, Ea; reflexivity|]. left. split; auto.
      unfold impl. cbn [ParseImpl]. rewrite (r_stack _ _ _ _ _ R), Es. cbn [map]. destruct Hact as (b & Eb & Sb).
      destruct b; try (exfalso; exact Sb). rewrite Eb. reflexivity.
    - eapply (stop_at _ _ _ _ 0); eauto; [lia|constructor|unfold parse_step; rewrite Es, Ea; reflexivity|]. right. left. split; auto.
      unfold impl. cbn [ParseImpl]. rewrite (r_stack _ _ _ _ _ R), Es. cbn [map]. rewrite Hact. reflexivity.
  Qed.
  Lemma sim_result a : nth_error tokens 0 = Some a -> stops (Parse V size P emit us) 0 50 (parse_init a).
  Proof using Hg W A Heof Hf TG N1 N2 N3 N4 N5 N6 Hsize Hus Hend.
    intros Ea. assert (exists tl, tokens = a :: tl) as [tl Et] by (destruct tokens; cbn in Ea; [discriminate|injection Ea as ->; eauto]).
    rewrite (parse_impl_starts a tl Et). eapply sim_stops; [apply (rel_init a tl Et)|lia].
  Qed.
End Sim.
